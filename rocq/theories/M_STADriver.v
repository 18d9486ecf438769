(* Model of the driver of the static type analysis: pseudocode_semantics.py:1281-1346 (passes over clusters of algorithms), 1428-1462 (tc_alg), 1466-1552 (tc_header),
   158-205 (summarize_headers), 523-596 (make_env, change_declared_type).
   Algorithms, headers and names of parameters are numbered; name 0 is '*return*' (it sorts before the names of parameters, which begin with an underscore).
   Types, their comparison and their union are arbitrary, and so is the analysis of the definitions of one header (tc_proc, 1556-1630; the analysis of commands is M_STA.v):
   a function of the summaries of the algorithms and of the environment made from the header. *)
From Verif Require Import M_Base M_Dict M_Graph.

Section Driver.
  Variable T : Type.
  Variable eqb : T -> T -> bool.            (* t == u *)
  Variable TBD : T.                         (* T_TBD *)
  Variable sub : T -> T -> bool.            (* is_a_subtype_of_or_equal_to *)
  Variable union : list T -> T.             (* union_of_types *)
  Variable body_error : Type.               (* what tc_proc adds to pass_errors *)

  (* 208-390  TypedAlgHeader: parameter_types (an OrderedDict) and return_type *)
  Record hinfo := mkH { hpars : list (nat * T); hret : T }.
  (* alg.parameters_with_types (joined names, type) and alg.return_type *)
  Definition summary : Type := list (list nat * T) * T.
  Record sta := mkSta { hd : list (nat * hinfo); sm : list (nat * summary) }.

  Variable headers : nat -> list nat.                    (* alg.headers *)
  Variable builtin : nat -> bool.                        (* alg.name in built_in_ops *)
  Variable discriminated : nat -> bool.                  (* alg.species.startswith('op: discriminated') *)
  Variable required : nat -> option nat.                 (* n_required_params, for 'op: discriminated by type: module rec' *)
  Variable for_param : nat -> option (nat * T).          (* header.tah.for_param_name and for_param_type, if there is a name *)
  Variable started : nat -> list nat.                    (* tah.started_with_TBD *)
  Variable no_defns : nat -> bool.                       (* tah.u_defns == [] *)
  Variable early : nat -> bool.                          (* tah.name == 'Early Errors' *)
  Variable parret : nat -> T -> res unit.                (* 541-565  the checks of make_env on the return type: SystemExit (NameError), AssertionError *)
  Notation env := (list (nat * T)).
  Variable analyse : (nat -> option summary) -> nat -> env -> res (list body_error * option env).    (* tc_proc: pass_errors added, and final_env.vars *)

  (* 1349-1366  pass_errors, and 1362-1375, 573-596  what is installed at a node *)
  Inductive error := E_body (h : nat) (e : body_error) | E_tbd (h pn : nat) | E_suggests (h pn : nat) (widening : bool) (t : T).
  Inductive msg := M_error (L : nat) (e : error) | M_change (L : nat) (h pn : nat) (old new : T).

  (* what the analysis sees of an algorithm. With one header, parameters_with_types is a live view: header.tah.parameter_types.items() (163) *)
  Definition view (st : sta) (a : nat) : option summary :=
    match nget (sm st) a with
    | None => None
    | Some (ps, r) =>
      Some (match headers a with
            | [h] => match nget (hd st) h with Some i => map (fun p => ([fst p], snd p)) (hpars i) | None => ps end
            | _ => ps
            end, r)
    end.

  (* set.add for types *)
  Fixpoint type_set (l : list T) : list T :=
    match l with
    | [] => []
    | t :: l' => let r := type_set l' in if existsb (eqb t) r then r else t :: r
    end.
  (* sorted(list(set(..))) *)
  Definition name_set (l : list nat) : list nat := isort Nat.leb (nodup Nat.eq_dec l).
  (* the i-th parameter of each header that has one *)
  Definition nth_params (is : list hinfo) (i : nat) : list (nat * T) := flat_map (fun x => match nth_error (hpars x) i with Some p => [p] | None => [] end) is.
  Fixpoint infos (st : sta) (hs : list nat) : res (list hinfo) :=
    match hs with
    | [] => Ok []
    | h :: hs' => do i <- nidx (hd st) h ;; do r <- infos st hs' ;; Ok (i :: r)
    end.
  (* 158-205 *)
  Definition summarize_headers (st : sta) (a : nat) : res sta :=
    match headers a with
    | [] => Ok st
    | [h] => do i <- nidx (hd st) h ;; Ok (mkSta (hd st) (nset (sm st) a (map (fun p => ([fst p], snd p)) (hpars i), hret i)))
    | h0 :: _ =>
      do _ <- assert_ (discriminated a) ;;
      do i0 <- nidx (hd st) h0 ;;
      let n := length (hpars i0) in
      do is <- infos st (headers a) ;;
      do _ <- assert_ (forallb (fun i => let k := length (hpars i) in
                                         match required a with Some q => (k =? q) || (k =? n) | None => k =? n end) is) ;;
      Ok (mkSta (hd st) (nset (sm st) a
            (map (fun i => (name_set (map fst (nth_params is i)), union (type_set (map snd (nth_params is i))))) (seq 0 n),
             union (type_set (map hret is)))))
    end.

  (* 523-539  make_env: the variables *)
  Definition init_env (h : nat) (i : hinfo) : env :=
    nset (fold_left (fun e p => nset e (fst p) (snd p)) (hpars i) (match for_param h with Some (n, t) => [(n, t)] | None => [] end)) 0 (hret i).
  (* init_env.vars == final_env.vars *)
  Definition vars_eqb (a b : env) : bool :=
    (length a =? length b) && forallb (fun p => match nget b (fst p) with Some t => eqb (snd p) t | None => false end) a.
  (* 573-596  change_declared_type *)
  Definition change_declared_type (L : nat) (st : sta) (h pn : nat) (new : T) : res (sta * msg) :=
    do i <- nidx (hd st) h ;;
    do oi <- (if pn =? 0 then Ok (hret i, mkH (hpars i) new)
              else do old <- nidx (hpars i) pn ;; Ok (old, mkH (nset (hpars i) pn new) (hret i))) ;;
    do _ <- assert_ (negb (eqb (fst oi) new)) ;;
    Ok (mkSta (nset (hd st) h (snd oi)) (sm st), M_change L h pn (fst oi) new).
  (* 1480-1485: fake_node_for_ has the parameters of the header and '*return*' *)
  Fixpoint still_tbd (h : nat) (nodes : list nat) (vars : env) : res (list error) :=
    match vars with
    | [] => Ok []
    | (pn, t) :: vars' =>
      if eqb t TBD then do _ <- (if nmem pn nodes then Ok tt else Err KeyError) ;; do r <- still_tbd h nodes vars' ;; Ok (E_tbd h pn :: r)
      else still_tbd h nodes vars'
    end.
  (* 1494-1552 *)
  Fixpoint compare_vars (L : nat) (h : nat) (init final : env) (pns : list nat) (st : sta) : res (bool * sta * list error * list msg) :=
    match pns with
    | [] => Ok (false, st, [], [])
    | pn :: pns' =>
      do it <- nidx init pn ;;
      do ft <- nidx final pn ;;
      if eqb it ft then compare_vars L h init final pns' st
      else if nmem pn (started h) then
        do cm <- change_declared_type L st h pn ft ;;
        do r <- compare_vars L h init final pns' (fst cm) ;;
        let '(_, st', es, ms) := r in Ok (true, st', es, snd cm :: ms)
      else if negb (pn =? 0) then compare_vars L h init final pns' st
      else if sub ft it then compare_vars L h init final pns' st
      else
        do r <- compare_vars L h init final pns' st ;;
        let '(c, st', es, ms) := r in Ok (c, st', E_suggests h pn (sub it ft) ft :: es, ms)
    end.
  (* 1466-1552  tc_header: changed_op_info, the state, pass errors, messages installed *)
  Definition tc_header (L : nat) (st : sta) (h : nat) : res (bool * sta * list error * list msg) :=
    do i <- nidx (hd st) h ;;
    do _ <- parret h (hret i) ;;
    if no_defns h then Ok (false, st, [], []) else
    do r <- analyse (view st) h (init_env h i) ;;
    let es := map (E_body h) (fst r) in
    if early h then
      match snd r with None => Ok (false, st, es, []) | Some _ => Err AssertionError end
    else
      match snd r with
      | None => Err AssertionError
      | Some final =>
        do es2 <- still_tbd h (map fst (hpars i) ++ [0]) final ;;
        if vars_eqb (init_env h i) final then Ok (false, st, es ++ es2, [])
        else
          do c <- compare_vars L h (init_env h i) final (isort Nat.leb (map fst (init_env h i))) st ;;
          let '(b, st', es3, ms) := c in Ok (b, st', es ++ es2 ++ es3, ms)
      end.
  (* 1446-1450 *)
  Fixpoint tc_headers (L : nat) (hs : list nat) (st : sta) : res (bool * sta * list error * list msg) :=
    match hs with
    | [] => Ok (false, st, [], [])
    | h :: hs' =>
      do r <- tc_header L st h ;;
      let '(c, st1, es, ms) := r in
      do r' <- tc_headers L hs' st1 ;;
      let '(c', st2, es', ms') := r' in Ok (c || c', st2, es ++ es', ms ++ ms')
    end.
  (* 1428-1462  tc_alg *)
  Definition tc_alg (L : nat) (st : sta) (a : nat) : res (bool * sta * list error * list msg) :=
    if builtin a then Ok (false, st, [], [])
    else
      do r <- tc_headers L (headers a) st ;;
      let '(c, st1, es, ms) := r in
      if c then do st2 <- summarize_headers st1 a ;; Ok (true, st2, es, ms) else Ok (false, st1, es, ms).
  (* 1320-1325  one pass over a cluster: whether n_ops_changed > 0, the state, pass_errors, messages installed meanwhile *)
  Fixpoint one_pass (L : nat) (members : list nat) (st : sta) : res (bool * sta * list error * list msg) :=
    match members with
    | [] => Ok (false, st, [], [])
    | a :: members' =>
      do r <- tc_alg L st a ;;
      let '(c, st1, es, ms) := r in
      do r' <- one_pass L members' st1 ;;
      let '(c', st2, es', ms') := r' in Ok (c || c', st2, es ++ es', ms ++ ms')
    end.
  (* 1306-1341  passes over a cluster; n passes are left before pass_num is 6 *)
  Fixpoint passes (L : nat) (members : list nat) (n : nat) (st : sta) : res (sta * list msg) :=
    match n with
    | 0 => Err SystemExit
    | S n' =>
      do r <- one_pass L members st ;;
      let '(c, st', es, ms) := r in
      if c then do r' <- passes L members n' st' ;; Ok (fst r', ms ++ snd r')
      else Ok (st', ms ++ map (M_error L) es)
    end.
  Definition n_passes : nat := 5.
  (* 1299-1341 *)
  Fixpoint do_clusters (L : nat) (clusters : list (list nat)) (st : sta) : res (sta * list msg) :=
    match clusters with
    | [] => Ok (st, [])
    | c :: cs =>
      do r <- passes L c n_passes st ;;
      do r' <- do_clusters L cs (fst r) ;; Ok (fst r', snd r ++ snd r')
    end.
  Fixpoint do_levels (L : nat) (levels : list (list (list nat))) (st : sta) : res (sta * list msg) :=
    match levels with
    | [] => Ok (st, [])
    | cs :: ls =>
      do r <- do_clusters L cs st ;;
      do r' <- do_levels (S L) ls (fst r) ;; Ok (fst r', snd r ++ snd r')
    end.
  (* 1281-1346 *)
  Definition do_STA (levels : list (list (list nat))) (st : sta) : res (sta * list msg) := do_levels 0 levels st.
  (* 114-115  before: summarize_headers for all algorithms *)
  Fixpoint summarize_all (algs : list nat) (st : sta) : res sta :=
    match algs with
    | [] => Ok st
    | a :: algs' => do st' <- summarize_headers st a ;; summarize_all algs' st'
    end.
  (* 118-131  the calls that build the dependency graph; callees are names, op_named looks in spec.alg_info_['op'], skipped is the test marked "XXX for now" *)
  Definition dep_history (algs : list nat) (callees : nat -> list nat) (op_named : nat -> option nat) (skipped : nat -> nat -> bool) : list gop :=
    flat_map (fun a => AddVertex a :: flat_map (fun n => if skipped a n then [] else match op_named n with None => [] | Some b => [AddArc a b] end) (callees a)) algs.
  (* the members of the clusters of each level *)
  Definition members_by_level (cls : list cluster) (levels : list (list nat)) : list (list (list nat)) :=
    map (map (fun i => match nth_error cls i with Some cl => members cl | None => [] end)) levels.
  (* 110-156, 1281-1346 *)
  Definition static_type_analysis (algs : list nat) (callees : nat -> list nat) (op_named : nat -> option nat) (skipped : nat -> nat -> bool) (st : sta) : res (sta * list msg) :=
    do st1 <- summarize_all algs st ;;
    do r <- compute_dependency_levels (fold_left apply_gop (dep_history algs callees op_named skipped) empty_graph) [] ;;
    do_STA (members_by_level (fst r) (snd r)) st1.
End Driver.
