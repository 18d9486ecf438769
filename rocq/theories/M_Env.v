(* Model of the environments of the static type analysis, pseudocode_semantics.py. *)
From Verif Require Import M_Base M_Dict M_Types.

Definition T_not_set := 14.     (* number of the hierarchy type not_set *)

(* pseudocode_semantics.py:626-632  class Env; texts of expressions, algorithm species, ParRet objects and outer Envs are numbered *)
Record env := mkEnv { e_species : nat; e_parret : nat; e_assoc : nat; e_vars : list (nat * ty); e_outer : option nat }.
(* 637-643, then assignment of vars *)
Definition with_vars (e : env) (vs : list (nat * ty)) : env := mkEnv (e_species e) (e_parret e) (e_assoc e) vs (e_outer e).
(* copy, then e.vars[x] = t *)
Definition set_var (e : env) (x : nat) (t : ty) : env := with_vars e (nset (e_vars e) x t).

(* self.outer is other.outer *)
Definition outer_eqb (a b : option nat) : bool :=
  match a, b with None, None => true | Some x, Some y => x =? y | _, _ => false end.
(* dict equality *)
Definition vars_eqb (a b : list (nat * ty)) : bool :=
  let le (a b : list (nat * ty)) := forallb (fun e => match nget b (fst e) with Some t => ty_eqb (snd e) t | None => false end) a in
  le a b && le b a.

Section Env.
  Variable h : hier.
  Variable schemas : list (nat * option nat).
  Variable uf : nat.       (* fuel for unions *)
  (* sorted(...) on a set of names: the order in which the entries are made *)
  Variable sorted : list nat -> list nat.

  (* [f(x) for x in l] where f may raise *)
  Fixpoint map_r {A B} (f : A -> res B) (l : list A) : res (list B) :=
    match l with
    | [] => Ok []
    | x :: l' => do y <- f x ;; do r <- map_r f l' ;; Ok (y :: r)
    end.

  (* 1250-1253 *)
  Definition all_vars (envs : list env) : list nat :=
    fold_left (fun s e => fold_left (fun s x => nadd x s) (map fst (e_vars e)) s) envs [].

  (* 1255-1260 *)
  Fixpoint or_vars (envs : list env) (xs : list nat) (acc : list (nat * ty)) : res (list (nat * ty)) :=
    match xs with
    | [] => Ok acc
    | x :: xs' =>
      do t <- union_of_types h uf (map (fun e => match nget (e_vars e) x with Some t => t | None => Hier T_not_set end) envs) ;;
      or_vars envs xs' (nset acc x t)
    end.
  (* 1238-1262 *)
  Definition envs_or (envs : list (option env)) : res (option env) :=
    let envs := flat_map (fun o => match o with Some e => [e] | None => [] end) envs in
    match envs with
    | [] => Ok None
    | [e] => Ok (Some e)
    | e0 :: _ =>
      do _ <- map_r (fun e => assert_ (outer_eqb (e_outer e) (e_outer e0) && (e_species e =? e_species e0) && (e_parret e =? e_parret e0))) envs ;;
      do vs <- or_vars envs (sorted (all_vars envs)) [] ;;
      Ok (Some (with_vars e0 vs))
    end.

  (* 1228-1229 *)
  Fixpoint inter_types (t : ty) (ts : list ty) : res ty :=
    match ts with
    | [] => Ok t
    | t' :: ts' => do io <- split_by h schemas uf t t' ;; inter_types (fst io) ts'
    end.
  (* 1220-1231 *)
  Fixpoint and_vars (envs : list env) (xs : list nat) (acc : list (nat * ty)) : res (list (nat * ty)) :=
    match xs with
    | [] => Ok acc
    | x :: xs' =>
      do ts <- map_r (fun e => nidx (e_vars e) x) envs ;;
      do t <- match filter (fun t => negb (ty_eqb t TBD)) ts with
              | [] => Ok TBD
              | t :: ts' => inter_types t ts'
              end ;;
      and_vars envs xs' (nset acc x t)
    end.
  (* 1219  set.intersection of the keys, in the order of the first: the real order is arbitrary *)
  Definition common_vars (envs : list env) : list nat :=
    match envs with
    | [] => []
    | e0 :: es => filter (fun x => forallb (fun e => nmem x (map fst (e_vars e))) es) (map fst (e_vars e0))
    end.
  (* 1212-1232 *)
  Definition envs_and (envs : list env) : res env :=
    match envs with
    | [] => Err AssertionError
    | [e] => Ok e
    | e0 :: es =>
      if match es with [e1] => vars_eqb (e_vars e0) (e_vars e1) | _ => false end then Ok e0
      else do vs <- and_vars envs (common_vars envs) [] ;; Ok (with_vars e0 vs)
    end.

  (* the errors that with_type_test adds *)
  Inductive pass_error :=
  | CantBe             (* 1132-1137 *)
  | FailsToConfirm     (* 1139-1144 *)
  | CantConfirmNot     (* 1152-1157 *)
  | MustBe             (* 1166-1172 *)
  | CantBeTest.        (* 1175-1181 *)
  Inductive copula := is_a | isnt_a | other_copula.

  (* 1062-1196  with_type_test, from the result (expr_t, env1) of tc_expr on; x: the text of the expression.
     sub_t = sup_t when target_t is just a type. *)
  Definition with_type_test (x : nat) (expr_t : ty) (env1 : env) (c : copula) (sub_t sup_t : ty) (asserting : bool)
    : res ((option env * option env) * list pass_error) :=
    if ty_eqb expr_t T_0 then Ok ((None, None), [])
    else
      do _ <- assert_ (negb (ty_eqb sup_t TBD)) ;;
      do _ <- assert_ (negb (ty_eqb sub_t TBD)) ;;
      if asserting && ty_eqb expr_t TBD then
        match c with
        | is_a => Ok ((Some (set_var env1 x sup_t), None), [])
        | _ => Ok ((Some env1, Some env1), [])
        end
      else
        do (in_sup, out_sup) <- split_by h schemas uf expr_t sup_t ;;
        do (in_sub, out_sub) <- split_by h schemas uf expr_t sub_t ;;
        do errs <-
          (if asserting then
             match c with
             | is_a => Ok ((if ty_eqb in_sup T_0 then [CantBe] else []) ++ (if ty_eqb out_sup T_0 then [] else [FailsToConfirm]))
             | isnt_a =>
               do _ <- assert_ (negb (ty_eqb out_sub T_0)) ;;
               Ok (if ty_eqb in_sub T_0 then [] else [CantConfirmNot])
             | other_copula => Err AssertionError
             end
           else Ok ((if ty_eqb out_sub T_0 then [MustBe] else []) ++ (if ty_eqb in_sup T_0 then [CantBeTest] else []))) ;;
        let is_env := set_var env1 x in_sup in
        let isnt_env := set_var env1 x out_sub in
        match c with
        | is_a => Ok ((Some is_env, Some isnt_env), errs)
        | isnt_a => Ok ((Some isnt_env, Some is_env), errs)
        | other_copula => Err AssertionError
        end.

  (* 1033-1058  with_expr_type_narrowed, from the result (expr_t, env1) of tc_expr on (without the special case for Math.max) *)
  Definition with_expr_type_narrowed (x : nat) (expr_t : ty) (env1 : env) (narrower_t : ty) : res env :=
    do s <- is_a_subtype_of_or_equal_to h schemas expr_t narrower_t ;;
    if s then Ok env1
    else
      do _ <- (if ty_eqb expr_t TBD then Ok tt
               else do s' <- is_a_subtype_of_or_equal_to h schemas narrower_t expr_t ;; assert_ s') ;;
      Ok (set_var env1 x narrower_t).
End Env.
