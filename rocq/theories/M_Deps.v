(* Model of analyze_static_dependencies, Pseudocode.py:837-1180. *)
From Coq Require Import Ascii String.
From Verif Require Import M_Base M_HTML M_Shared M_Values M_Validate M_Style.
Open Scope list_scope.
Open Scope nat_scope.
Notation length := List.length.

(* Pseudocode_Parser.py:516-529 ANode, as far as this analysis reads it: which node it is
   (its identity), the right-hand side of its production, its source text, the operations named
   in _op_invocation if it has one (Pseudocode.py:475), the _syntax_tree of its _hnode if it has
   one (Pseudocode.py:190, 310; it is None if parsing failed), and its children that are nodes.
   Children that are strings are left out: no line of the analysis looks at them. *)
Inductive ctree : Set :=
| CT (id : nat) (rhs src : text) (inv : option (list text)) (sub : option (option ctree)) (ch : list ctree).
(* algos.py:130-135, 236-237: an AlgDefn, with the number of the section of its header *)
Record cdefn := mkCD { cd_sect : text; cd_anodes : list (option ctree) }.
(* algos.py:106-118: an Alg, with its all_definitions() *)
Record calg := mkCA { ca_species : text; ca_defns : list cdefn }.
(* algos.py:88  the values of spec.alg_info_ *)
Definition cdict : Type := list (text * calg).

(* Pseudocode.py:864-877  recurse: the names invoked, each with the node that invokes it *)
Definition call : Set := text * nat.
Fixpoint calls_in (name : text) (t : ctree) {struct t} : res (list call) :=
  match t with
  | CT id _ _ inv sub ch =>
    do here <-
      match inv with
      | Some names => Ok (map (fun n => (n, id)) names)
      | None =>
        match sub with
        | None => Ok []
        | Some st =>
          do _ <- assert_ (text_eqb name (tx "Early Errors")) ;;
          match st with Some t' => calls_in name t' | None => Err AttributeError end
        end
      end ;;
    do rest <-
      (fix go (l : list ctree) : res (list call) :=
         match l with [] => Ok [] | c :: l' => do a <- calls_in name c ;; do b <- go l' ;; Ok (a ++ b) end) ch ;;
    Ok (here ++ rest)
  end.
(* Pseudocode.py:879-880 *)
Definition calls_of_anode (name : text) (a : option ctree) : res (list call) :=
  match a with None => Ok [] | Some t => calls_in name t end.
Definition calls_of_defn (name : text) (d : cdefn) : res (list call) :=
  do l <- map_res (calls_of_anode name) (cd_anodes d) ;; Ok (concat l).

(* what is found out about one algorithm: the invocations in each of its definitions, and its callees *)
Record cinfo := mkCI { ci_name : text; ci_alg : calg; ci_calls : list (text * list call); ci_callees : list text }.
(* Pseudocode.py:856-888 *)
Definition info_of (e : text * calg) : res cinfo :=
  let (name, a) := e in
  do ls <- map_res (calls_of_defn name) (ca_defns a) ;;
  let found := map fst (concat ls) in
  do all <-
    (if text_eqb name (tx "HostLoadImportedModule")
     then do _ <- assert_ (length (ca_defns a) =? 0) ;; Ok (found ++ [tx "FinishLoadingImportedModule"])
     else Ok found) ;;
  Ok (mkCI name a (combine (map cd_sect (ca_defns a)) ls) (sorted_set all)).
(* Pseudocode.py:856-860 *)
Definition infos_of (ops bifs : cdict) : res (list cinfo) :=
  map_res info_of (sorted_items ops ++ sorted_items bifs).

(* callee_name in spec.alg_info_['op'] *)
Definition is_op (ops : cdict) (n : text) : bool := tmem_ n (map fst ops).
(* Pseudocode.py:871  invocations of an operation, in the order in which they are appended *)
Definition invocations_of (ops : cdict) (is : list cinfo) (n : text) : list nat :=
  if is_op ops n
  then flat_map (fun i => flat_map (fun dc => map snd (filter (fun c => text_eqb (fst c) n) (snd dc))) (ci_calls i)) is
  else [].
(* Pseudocode.py:873, 900: what is said of calls of undeclared operations.  The second kind comes in
   the order of a set in Python; here, in alphabetical order. *)
Inductive complaint : Set :=
| NoEntryIn (callee caller sect : text)
| NoEntry (callee caller : text).
Definition complaints (ops : cdict) (is : list cinfo) : list complaint :=
  flat_map (fun i =>
    flat_map (fun dc => map (fun c => NoEntryIn (fst c) (ci_name i) (fst dc)) (filter (fun c => negb (is_op ops (fst c))) (snd dc))) (ci_calls i)
    ++ map (fun c => NoEntry c (ci_name i)) (filter (fun c => negb (is_op ops c)) (ci_callees i))) is.
(* Pseudocode.py:896-898  callers: names of algorithms of both kinds *)
Definition callers_of (is : list cinfo) (n : text) : list text :=
  map ci_name (filter (fun i => tmem_ n (ci_callees i)) is).
(* spec.alg_info_['op'][n].callees; the operations come first in the list *)
Definition op_callees (nops : nat) (is : list cinfo) (n : text) : option (list text) :=
  option_map ci_callees (find (fun i => text_eqb n (ci_name i)) (firstn nops is)).

(* Pseudocode.py:910-922  reach_op: the names without info and the operations that are marked *)
Definition rstate : Set := list text * list text.
Fixpoint reach_op (fuel : nat) (callees : text -> option (list text)) (st : rstate) (n : text) {struct fuel} : res rstate :=
  match fuel with
  | O => Err OutOfFuel
  | S f =>
    let (noinfo, reached) := st in
    if tmem_ n noinfo then Ok st
    else match callees n with
    | None => Ok (n :: noinfo, reached)
    | Some cs =>
      if tmem_ n reached then Ok st
      else (fix go (l : list text) (st : rstate) : res rstate :=
              match l with [] => Ok st | c :: l' => do st' <- reach_op f callees st c ;; go l' st' end) cs (noinfo, n :: reached)
    end
  end.
Fixpoint reach_all (fuel : nat) (callees : text -> option (list text)) (st : rstate) (l : list text) : res rstate :=
  match l with [] => Ok st | n :: l' => do st' <- reach_op fuel callees st n ;; reach_all fuel callees st' l' end.
(* Pseudocode.py:924-954 *)
Definition top_level : list text :=
  [ tx "Early Errors"; tx "InitializeHostDefinedRealm"; tx "ParseScript"; tx "ScriptEvaluation"; tx "ParseModule"; tx "Link"; tx "Evaluate"
  ; tx "DetachArrayBuffer"; tx "HostEventSet"; tx "Valid Chosen Reads"; tx "Coherent Reads"; tx "Tear Free Reads"; tx "Data Races" ].
Definition start_points (nops : nat) (is : list cinfo) : list text :=
  top_level ++ flat_map ci_callees (skipn nops is).

(* Pseudocode.py:984-995: sections with their titles and the names of their algorithm headers *)
Record csect := mkCS { cs_title : text; cs_headers : list text }.
Inductive label : Set := LStatic | LRuntime | LNone.
Definition label_of (s : csect) : label :=
  if is_prefix (tx "Static Semantics:") (cs_title s) then LStatic
  else if is_prefix (tx "Runtime Semantics:") (cs_title s) then LRuntime
  else LNone.
Definition same_label (a b : label) : bool :=
  match a, b with LStatic, LStatic | LRuntime, LRuntime | LNone, LNone => true | _, _ => false end.
Definition labelled (l : label) (ss : list csect) : list text :=
  flat_map (fun s => match cs_headers s with [] => [] | h :: _ => if same_label (label_of s) l then [h] else [] end) ss.
(* a & b, a - b *)
Definition both (a b : list text) : list text := filter (fun x => tmem_ x b) a.
Definition minus (a b : list text) : list text := filter (fun x => negb (tmem_ x b)) a.

(* Pseudocode.py:1024-1040  ss_reach_op *)
Fixpoint ss_reach_op (fuel : nat) (callees : text -> option (list text)) (noinfo ss : list text) (n : text) {struct fuel} : res (list text) :=
  match fuel with
  | O => Err OutOfFuel
  | S f =>
    if tmem_ n noinfo then Ok ss
    else if tmem_ n ss then Ok ss
    else match callees n with
    | None => Err KeyError
    | Some cs =>
      (fix go (l : list text) (ss : list text) : res (list text) :=
         match l with
         | [] => Ok ss
         | c :: l' =>
           if text_eqb n (tx "ToString") && tmem_ c [tx "ToPrimitive"; tx "ToString"] then go l' ss
           else do ss' <- ss_reach_op f callees noinfo ss c ;; go l' ss'
         end) cs (n :: ss)
    end
  end.
Fixpoint ss_reach_all (fuel : nat) (callees : text -> option (list text)) (noinfo ss : list text) (l : list text) : res (list text) :=
  match l with [] => Ok ss | n :: l' => do ss' <- ss_reach_op fuel callees noinfo ss n ;; ss_reach_all fuel callees noinfo ss' l' end.
(* Pseudocode.py:1042-1044 *)
Definition ss_points : list text := [tx "Early Errors"; tx "ParseScript"; tx "ParseModule"].

(* Pseudocode.py:1070-1080  ss_calls_non, non_calls_ss *)
Definition crossing (from_ss : bool) (ss : list text) (is : list cinfo) : list (text * text) :=
  flat_map (fun i =>
    map (fun c => (ci_name i, c))
      (filter (fun c => Bool.eqb (tmem_ (ci_name i) ss) from_ss && Bool.eqb (tmem_ c ss) (negb from_ss)) (ci_callees i))) is.

(* Pseudocode.py:1098-1129  looks_runtimey *)
Definition runtime_phrases : list text :=
  [ tx "execution context"; tx "{EXECUTION_CONTEXT_COMPONENT}"
  ; tx "a newly created object"; tx "a new built-in function object"; tx "an ECMAScript function object"; tx "an iterator object"
  ; tx "internal slot"; tx "own property"; tx "the property named"
  ; tx "Data Block"; tx "Environment Record"; tx "Realm Record"; tx "the thisValue component"; tx "Throw a" ].
Definition runtime_texts : list text := [ tx "[[Prototype]]"; tx "[[Extensible]]" ].
Definition looks_runtimey (rhs src : text) : bool :=
  existsb (fun p => text_in p rhs) runtime_phrases || existsb (fun p => text_in p src) runtime_texts.
(* Pseudocode.py:1135-1142  recurse: whether a name is added, and whether the loop of the caller is left *)
Fixpoint runtimey_in (name : text) (t : ctree) {struct t} : res (bool * bool) :=
  match t with
  | CT _ rhs src _ sub ch =>
    if looks_runtimey rhs src then Ok (true, true)
    else
      do here <-
        match sub with
        | None => Ok false
        | Some st =>
          do _ <- assert_ (text_eqb name (tx "Early Errors")) ;;
          match st with Some t' => do r <- runtimey_in name t' ;; Ok (fst r) | None => Err AttributeError end
        end ;;
      (fix go (l : list ctree) (b : bool) : res (bool * bool) :=
         match l with
         | [] => Ok (b, false)
         | c :: l' =>
           do r <- runtimey_in name c ;;
           if snd r then Ok (true, true) else go l' (b || fst r)
         end) ch here
  end.
(* Pseudocode.py:1132-1144 *)
Definition runtimey_anode (name : text) (a : option ctree) : res bool :=
  match a with None => Ok false | Some t => do r <- runtimey_in name t ;; Ok (fst r) end.
Definition runtimey_alg (e : text * calg) : res (list text) :=
  do bs <- map_res (runtimey_anode (fst e)) (flat_map cd_anodes (ca_defns (snd e))) ;;
  Ok (if existsb (fun b => b) bs then [fst e] else []).
Definition runtimey_direct (ops : cdict) : res (list text) :=
  do l <- map_res runtimey_alg (sorted_items ops) ;; Ok (concat l).
(* Pseudocode.py:1147-1157  the names that a round of the loop adds *)
Definition next_callers (ops : cdict) (is : list cinfo) (cur : list text) : list text :=
  nodup (list_eq_dec N.eq_dec)
    (filter (fun c => is_op ops c && negb (tmem_ c cur)) (flat_map (callers_of is) cur)).
Fixpoint runtimey_loop (fuel : nat) (ops : cdict) (is : list cinfo) (cur : list text) : res (list text) :=
  match fuel with
  | O => Err OutOfFuel
  | S f => match next_callers ops is cur with [] => Ok cur | new => runtimey_loop f ops is (cur ++ new) end
  end.

(* what is written to the file static_deps, and what is left with the operations *)
Record deps := mkDeps
  { dp_algs : list (text * text * nat * list text)   (* name, species, number of definitions, callees *)
  ; dp_stderr : list complaint
  ; dp_invocations : text -> list nat
  ; dp_undeclared : list text
  ; dp_unreached : list text
  ; dp_ss_rs : list text
  ; dp_ss_un : list text
  ; dp_rs_un : list text
  ; dp_ss_unreached : list text
  ; dp_ss_unlabelled : list text
  ; dp_ss_non : list (text * text)
  ; dp_non_ss : list (text * text)
  ; dp_ss_runtimey : list text
  ; dp_not_runtimey : list text }.
(* Pseudocode.py:837-1180  analyze_static_dependencies.  The depth of the recursion of reach_op and
   ss_reach_op is at most the number of operations plus one; Python's own limit is not modelled. *)
Definition analyze (ops bifs : cdict) (sects : list csect) : res deps :=
  do is <- infos_of ops bifs ;;
  let nops := length ops in
  let callees := op_callees nops is in
  do st <- reach_all (S (S nops)) callees ([], []) (start_points nops is) ;;
  let (noinfo, reached) := st in
  let ss := labelled LStatic sects in
  let rs := labelled LRuntime sects in
  let un := labelled LNone sects in
  do ssr <- ss_reach_all (S (S nops)) callees noinfo [] ss_points ;;
  do r0 <- runtimey_direct ops ;;
  do r <- runtimey_loop (S nops) ops is r0 ;;
  let dont := minus (map fst ops) r in
  Ok (mkDeps
    (map (fun i => (ci_name i, ca_species (ci_alg i), length (ca_defns (ci_alg i)), ci_callees i)) is)
    (complaints ops is)
    (invocations_of ops is)
    (sorted_set noinfo)
    (filter (fun n => negb (tmem_ n reached)) (map fst (sorted_items ops)))
    (sorted_set (both ss rs)) (sorted_set (both ss un)) (sorted_set (both rs un))
    (sorted_set (minus ss ssr)) (sorted_set (minus ssr ss))
    (crossing true ss (firstn nops is)) (crossing false ss (firstn nops is))
    (sorted_set (minus ss dont)) (sorted_set (minus dont ss))).
