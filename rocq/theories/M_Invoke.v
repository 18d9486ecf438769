(* Model of the annotation of invocations, Pseudocode.py:314-503, and of two checks that use it:
   check_the_sdo_name, 1185-1246, and check_optional_parameters, 1251-1318. *)
From Coq Require Import Ascii String.
From Verif Require Import M_Base M_HTML M_Shared M_Records M_Values M_Validate M_Style.
Open Scope list_scope.
Open Scope nat_scope.
Notation length := List.length.

(* Pseudocode.py:489-503  exes_in_exlist; the loop goes down the first children *)
Fixpoint exes_in_exlist (n : anode) (exes : list anode) {struct n} : res (list anode) :=
  match n with
  | Leaf _ => Err AttributeError
  | Node l r _ _ ch =>
    do _ <- assert_ (text_eqb l (tx "{EXLIST}")) ;;
    if text_eqb r (tx "{EX}") then
      match ch with [ex] => Ok (ex :: exes) | _ => Err ValueError end
    else if text_eqb r (tx "{EXLIST}, {EX}") then
      match ch with [inner; ex] => exes_in_exlist inner (ex :: exes) | _ => Err ValueError end
    else Err AssertionError
  end.
(* Pseudocode.py:477-487  exes_in_exlist_opt *)
Definition exes_in_exlist_opt (n : anode) : res (list anode) :=
  do l <- lhs_of n ;;
  do _ <- assert_ (text_eqb l (tx "{EXLIST_OPT}")) ;;
  do r <- rhs_of n ;;
  do ch <- ch_of n ;;
  if text_eqb r (tx "{EPSILON}") then Ok []
  else if text_eqb r (tx "{EXLIST}") then match ch with [x] => exes_in_exlist x [] | _ => Err ValueError end
  else if text_eqb r (tx "{var}") then do x <- item ch 0 ;; Ok [x]
  else Err AssertionError.

(* Pseudocode.py:321-472: which branch a production leads to *)
Inductive form : Set :=
| FPass                     (* 324-335 *)
| FIsdo                     (* 337-344 *)
| FWord (with_args : bool)  (* 346-364 *)
| FJobs                     (* 366-368 *)
| FFixed (callee : text)    (* 370-377 *)
| FNoKey                    (* 371-375: not in the dictionary *)
| FParen                    (* 379-460 *)
| FRace                     (* 462-464 *)
| FFields                   (* 466-468 *)
| FReject                   (* 470-472 *)
| FOther.
Definition form_of (l r : text) : form :=
  if text_eqb l (tx "{NAMED_OPERATION_INVOCATION}") then
    if lhs_in r [ tx "{h_emu_meta_start}{NAMED_OPERATION_INVOCATION}{h_emu_meta_end}"
                ; tx "{h_emu_meta_start}{NAMED_OPERATION_INVOCATION}{h_emu_meta_end} (see {h_emu_xref})" ] then FPass
    else if lhs_in r [ tx "{PREFIX_PAREN}" ] then FPass
    else if lhs_in r [ tx "the {ISDO_NAME} of {PROD_REF}"; tx "{ISDO_NAME} of {PROD_REF}" ] then FIsdo
    else if lhs_in r [ tx "the {cap_word} of {LOCAL_REF}"; tx "the {cap_word} of {LOCAL_REF} (see {h_emu_xref})"
                     ; tx "the {cap_word} of {LOCAL_REF} as defined in {h_emu_xref}"; tx "the {cap_word} of {LOCAL_REF} {WITH_ARGS}"
                     ; tx "{cap_word} of {LOCAL_REF}"; tx "{cap_word} of {LOCAL_REF} {WITH_ARGS}"
                     ; tx "the result of performing {cap_word} on {EX}" ] then FWord (text_in (tx "{WITH_ARGS}") r)
    else if text_eqb r (tx "the abstract operation named by {DOTTING} using the elements of {DOTTING} as its arguments") then FJobs
    else match tget_ r [ (tx "the CharSet returned by {h_emu_grammar}", tx "CompileToCharSet")
                       ; (tx "{LOCAL_REF} Contains {G_SYM}", tx "Contains")
                       ; (tx "{LOCAL_REF} Contains {var}", tx "Contains") ] with
         | Some c => FFixed c | None => FNoKey end
  else if text_eqb l (tx "{PREFIX_PAREN}") then FParen
  else if text_eqb (prod_str l r) (tx "{CONDITION_1} : {var} and {var} are in a race in {var}") then FRace
  else if text_eqb (prod_str l r) (tx "{COMMAND} : Set fields of {var} with the values listed in {h_emu_xref}. {the_field_names_are_the_names_listed_etc}") then FFields
  else if text_eqb (prod_str l r) (tx "{COMMAND} : IfAbruptRejectPromise({var}, {var}).") then FReject
  else FOther.

(* what _op_invocation is set to: names and arguments *)
Definition invoc : Type := (list text * list anode)%type.
(* Pseudocode.py:408-418 *)
Definition conversion_ops : list text :=
  [ tx "ToInt8"; tx "ToUint8"; tx "ToUint8Clamp"; tx "ToInt16"; tx "ToUint16"; tx "ToInt32"; tx "ToUint32"; tx "ToBigInt64"; tx "ToBigUint64" ].
(* Pseudocode.py:422-447 *)
Definition binary_ops : list text :=
  flat_map (fun o => [tx "Number::" ++ o; tx "BigInt::" ++ o])
    [ tx "exponentiate"; tx "multiply"; tx "divide"; tx "remainder"; tx "add"; tx "subtract"; tx "leftShift"; tx "signedRightShift"
    ; tx "unsignedRightShift"; tx "bitwiseAND"; tx "bitwiseXOR"; tx "bitwiseOR" ].
(* Pseudocode.py:386-453: the names for what stands before the parenthesis; d is the whole invocation *)
Definition names_before_paren (st : text) (d opn : anode) : res (option (list text)) :=
  do r <- rhs_of opn ;;
  do ch <- ch_of opn ;;
  if text_eqb r (tx "{SIMPLE_OPERATION_NAME}") then do t <- source_text st opn ;; Ok (Some [t])
  else if text_eqb r (tx "{DOTTING}") then
    match ch with
    | [dotting] =>
      do dch <- ch_of dotting ;;
      match dch with
      | [_; dsbn] => do t <- source_text st dsbn ;; Ok (Some (if lhs_in t [tx "[[ModifyOp]]"; tx "[[ReadsBytesFrom]]"] then [] else [t]))
      | _ => Err ValueError
      end
    | _ => Err ValueError
    end
  else if text_eqb r (tx "{var}.{cap_word}") then
    match ch with [_; w] => do t <- source_text st w ;; Ok (Some [t]) | _ => Err ValueError end
  else if text_eqb r (tx "{var}") then
    do t <- source_text st opn ;;
    if text_eqb t (tx "_conversionOperation_") then Ok (Some conversion_ops)
    else if text_eqb t (tx "_operation_") then
      do dt <- source_text st d ;;
      do _ <- assert_ (text_eqb dt (tx "_operation_(_leftNumber_, _rightNumber_)")) ;; Ok (Some binary_ops)
    else Ok None
  else Err AssertionError.
(* Pseudocode.py:314-475  annotate_invocations, for one node *)
Definition annotate (st : text) (d : anode) : res (option invoc) :=
  do l <- lhs_of d ;;
  do r <- rhs_of d ;;
  do ch <- ch_of d ;;
  match form_of l r with
  | FPass => Ok None
  | FIsdo =>
    do w <- item ch 0 ;;
    do wr <- rhs_of w ;;
    do _ <- assert_ (text_eqb wr (tx "{cap_word}")) ;;
    do t <- source_text st w ;;
    do a <- item ch 1 ;; Ok (Some ([t], [a]))
  | FWord wa =>
    do w <- item ch 0 ;;
    do t <- source_text st w ;;
    do a <- item ch 1 ;;
    if wa then
      do x <- item ch 2 ;;
      do xl <- lhs_of x ;;
      do _ <- assert_ (text_eqb xl (tx "{WITH_ARGS}")) ;;
      do xr <- rhs_of x ;;
      do xc <- ch_of x ;;
      Ok (Some ([t], a :: (if text_in (tx "{PASSING}") xr then tl xc else xc)))
    else Ok (Some ([t], [a]))
  | FJobs => do a <- item ch 1 ;; Ok (Some ([tx "ScriptEvaluationJob"; tx "TopLevelModuleEvaluationJob"], [a]))
  | FFixed c => Ok (Some ([c], ch))
  | FNoKey => Err KeyError
  | FParen =>
    do _ <- assert_ (lhs_in r [tx "{OPN_BEFORE_PAREN}({EXLIST_OPT})"; tx "{OPN_BEFORE_PAREN}({EXPR})"]) ;;
    match ch with
    | [opn; args] =>
      do ol <- lhs_of opn ;;
      do _ <- assert_ (text_eqb ol (tx "{OPN_BEFORE_PAREN}")) ;;
      do orhs <- rhs_of opn ;;
      do och <- ch_of opn ;;
      do opn' <- (if text_eqb orhs (tx "{h_emu_meta_start}{OPN_BEFORE_PAREN}{h_emu_meta_end}")
                  then match och with [_; o; _] => Ok o | _ => Err ValueError end else Ok opn) ;;
      do names <- names_before_paren st d opn' ;;
      do al <- lhs_of args ;;
      do xs <- (if text_eqb al (tx "{EXLIST_OPT}") then exes_in_exlist_opt args
                else if text_eqb al (tx "{EXPR}") then Ok [args] else Err AssertionError) ;;
      Ok (match names with Some ns => Some (ns, xs) | None => None end)
    | _ => Err ValueError
    end
  | FRace => Ok (Some ([tx "Races"], []))
  | FFields => Ok (Some ([tx "CreateBuiltinFunction"; tx "initializer for @@unscopables"], []))
  | FReject => Ok (Some ([tx "IfAbruptRejectPromise"], firstn 2 ch))
  | FOther => Ok None
  end.
(* Pseudocode.py:318: the nodes of a tree that are annotated, in the order of the walk *)
Definition annotate_invocations (st : text) (root : anode) : res (list (visit * invoc)) :=
  do l <- map_res (fun v => do o <- annotate st (v_node v) ;; Ok (match o with Some i => [(v, i)] | None => [] end)) (each_desc [] 0 root) ;;
  Ok (concat l).

(* ------------------------------------------------------------------ *)
(* Pseudocode.py:1251-1318  check_optional_parameters.  Parameters have a name and a punct. *)
Inductive verdict : Set := NoInvocations | AllSupply (n : nat) | NoneSupplies (n : nat).
Record oper := mkOper { op_params : option (list (text * text)); op_invs : list anode }.
(* Pseudocode.py:1282-1299 *)
Definition args_of (st : text) (op : text) (inv : anode) : res (list anode) :=
  do p <- prod_of inv ;;
  do ch <- ch_of inv ;;
  if text_eqb p (tx "{PREFIX_PAREN} : {OPN_BEFORE_PAREN}({EXLIST_OPT})") then
    match ch with [_; x] => exes_in_exlist_opt x | _ => Err ValueError end
  else if text_eqb p (tx "{NAMED_OPERATION_INVOCATION} : {cap_word} of {LOCAL_REF}") then Ok []
  else if text_eqb p (tx "{NAMED_OPERATION_INVOCATION} : {cap_word} of {LOCAL_REF} {WITH_ARGS}") then
    match ch with
    | [w; _; x] => do t <- source_text st w ;; do _ <- assert_ (text_eqb t op) ;; ch_of x
    | _ => Err ValueError
    end
  else Err AssertionError.
(* Pseudocode.py:1266-1316: one parameter; i counts from 1 *)
Definition check_param (st op : text) (invs : list anode) (i : nat) (p : text * text) : res (list (text * nat * text * verdict)) :=
  do _ <- assert_ (lhs_in (snd p) [tx ""; tx "[]"]) ;;
  if text_eqb (snd p) (tx "[]") then
    if length invs =? 0 then Ok [(op, i, fst p, NoInvocations)]
    else
      do ls <- map_res (fun inv => do a <- args_of st op inv ;; Ok (i <=? length a)) invs ;;
      let supply := length (filter (fun b => b) ls) in
      let dont := length (filter negb ls) in
      do _ <- assert_ (supply + dont =? length invs) ;;
      Ok ((if dont =? 0 then [(op, i, fst p, AllSupply (length invs))] else [])
          ++ (if supply =? 0 then [(op, i, fst p, NoneSupplies (length invs))] else []))
  else Ok [].
Fixpoint check_params (st op : text) (invs : list anode) (i : nat) (ps : list (text * text)) : res (list (text * nat * text * verdict)) :=
  match ps with
  | [] => Ok []
  | p :: ps' => do a <- check_param st op invs i p ;; do b <- check_params st op invs (S i) ps' ;; Ok (a ++ b)
  end.
Definition check_optional_parameters (st : text) (ops : list (text * oper)) : res (list (text * nat * text * verdict)) :=
  do l <- map_res (fun e => match op_params (snd e) with None => Ok [] | Some ps => check_params st (fst e) (op_invs (snd e)) 1 ps end) (sorted_items ops) ;;
  Ok (concat l).

(* ------------------------------------------------------------------ *)
(* Pseudocode.py:1185-1246  check_the_sdo_name.  Of the headers, the source of return_nature_node. *)
Record sdo := mkSdo { sdo_species : text; sdo_invs : list visit; sdo_headers : list (option text) }.
Inductive the_msg : Set := NoCalls (op : text) | NotThe (posn : nat) | NeedsThe (posn : nat).
(* re.fullmatch(r'either a normal completion containing .+ or an abrupt completion', r) *)
Definition normal_or_abrupt (r : text) : bool :=
  let a := tx "either a normal completion containing " in
  let b := tx " or an abrupt completion" in
  is_prefix a r && is_prefix (rev b) (rev r) && (length a + length b <? length r)
  && forallb (fun c => negb (N.eqb c 10)) (slice (length a) (length r - length b) r).
(* Pseudocode.py:1209-1222 *)
Definition accepts_the (op r : text) : bool :=
  negb (lhs_in r [tx "a Boolean"; tx "~unused~"; tx "either a normal completion containing ~unused~ or an abrupt completion"]
        || existsb (fun p => is_prefix p op) [tx "Compile"; tx "Instantiate"; tx "Define"; tx "Evaluate"]
        || text_eqb op (tx "WithClauseToAttributes")
        || normal_or_abrupt r
        || lhs_in r [tx "a Completion Record"; tx "a return completion"; tx "a throw completion or a return completion"]).
(* Pseudocode_Parser.py:545-549  closest_containing *)
Definition closest_containing (v : visit) (lhs : text) : option anode :=
  find (fun n => match lhs_of n with Ok l => text_eqb l lhs | Err _ => false end) (v_node v :: v_anc v).
(* Pseudocode.py:1224-1246 *)
Definition check_the (accepts : bool) (v : visit) : res (list the_msg) :=
  do l <- lhs_of (v_node v) ;;
  do _ <- assert_ (text_eqb l (tx "{NAMED_OPERATION_INVOCATION}")) ;;
  let should := accepts && match closest_containing v (tx "{PREFIX_PAREN}") with None => true | Some _ => false end in
  do r <- rhs_of (v_node v) ;;
  let is := text_in (tx "the {cap_word}") r in
  do p <- posn_of (v_node v) ;;
  Ok (if is && negb should then [NotThe p] else if negb is && should then [NeedsThe p] else []).
(* Pseudocode.py:1194-1246 *)
Definition check_sdo (e : text * sdo) : res (list the_msg) :=
  let (op, s) := e in
  if is_prefix (tx "op: discriminated by syntax") (sdo_species s) then
    if length (sdo_invs s) =? 0 then Ok (if text_eqb op (tx "Early Errors") then [] else [NoCalls op])
    else
      do h <- item (sdo_headers s) 0 ;;
      do r <- match h with None => do _ <- assert_ (text_eqb op (tx "MV")) ;; Ok (tx "a mathematical value") | Some r => Ok r end ;;
      do l <- map_res (check_the (accepts_the op r)) (sdo_invs s) ;; Ok (concat l)
  else Ok [].
Definition check_the_sdo_name (ops : list (text * sdo)) : res (list the_msg) :=
  do l <- map_res check_sdo (sorted_items ops) ;; Ok (concat l).
