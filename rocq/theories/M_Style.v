(* Model of the checks of the style of pseudocode, Pseudocode.py:508-833. *)
From Coq Require Import Ascii String.
From Verif Require Import M_Base M_HTML M_Shared M_Indent M_Refs M_Records M_Values M_Meta.
Open Scope list_scope.
Open Scope nat_scope.
Notation length := List.length.

(* Pseudocode_Parser.py:516-529  ANode: the two sides of its production, where its
   source begins and ends, and its children, some of which may be strings *)
Inductive anode : Set :=
| Node (lhs rhs : text) (s e : nat) (ch : list anode)
| Leaf (t : text).

(* node.prod.lhs_s, node.prod.rhs_s, node.start_posn, node.children; a string has none of them *)
Definition lhs_of (n : anode) : res text := match n with Node l _ _ _ _ => Ok l | Leaf _ => Err AttributeError end.
Definition rhs_of (n : anode) : res text := match n with Node _ r _ _ _ => Ok r | Leaf _ => Err AttributeError end.
Definition posn_of (n : anode) : res nat := match n with Node _ _ s _ _ => Ok s | Leaf _ => Err AttributeError end.
Definition ch_of (n : anode) : res (list anode) := match n with Node _ _ _ _ ch => Ok ch | Leaf _ => Err AttributeError end.
(* Pseudocode_Parser.py:101-102  Production.__str__ *)
Definition prod_str (l r : text) : text := l ++ tx " : " ++ r.
Definition prod_of (n : anode) : res text := do l <- lhs_of n ;; do r <- rhs_of n ;; Ok (prod_str l r).
(* shared.py:78-80  source_text *)
Definition source_text (st : text) (n : anode) : res text :=
  match n with Node _ _ s e _ => Ok (slice s e st) | Leaf _ => Err AttributeError end.
(* l[i] *)
Definition item {A} (l : list A) (i : nat) : res A := match nth_error l i with Some x => Ok x | None => Err IndexError end.
(* p in q *)
Definition lhs_in (l : text) (ls : list text) : bool := existsb (text_eqb l) ls.

(* a node met on a walk through a tree, its place among the children of its parent
   and its ancestors, the closest first *)
Record visit := mkV { v_node : anode; v_index : nat; v_anc : list anode }.
(* Pseudocode_Parser.py:558-567  each_descendant_or_self, each_descendant *)
Fixpoint each_desc (anc : list anode) (i : nat) (n : anode) {struct n} : list visit :=
  match n with
  | Leaf _ => []
  | Node _ _ _ _ ch =>
    mkV n i anc ::
    (fix go (j : nat) (l : list anode) : list visit :=
       match l with [] => [] | c :: l' => each_desc (n :: anc) j c ++ go (S j) l' end) 0 ch
  end.
(* a message at a position; shared.py:267-268  msg_at_node *)
Definition msg : Set := nat * text.
Definition msg_at_node (n : anode) (m : text) : res (list msg) := do p <- posn_of n ;; Ok [(p, m)].
(* what the rounds of a loop report, one after the other *)
Fixpoint each_msg {A} (f : A -> res (list msg)) (l : list A) : res (list msg) :=
  match l with [] => Ok [] | x :: l' => do a <- f x ;; do b <- each_msg f l' ;; Ok (a ++ b) end.

(* ------------------------------------------------------------------ *)
(* algos.py:134-141, 147-157: what the check of variables reads of a header *)
Record param := mkParam { p_name : text; p_decl : option anode }.
Record header := mkHeader { h_species : text; h_params : list param; h_for : option anode }.

(* Pseudocode.py:557-561 *)
Record thing := mkThing { defs : list (option anode); uses : list anode; okay : bool }.
Definition no_thing : thing := mkThing [] [] false.
(* Pseudocode.py:563  things = defaultdict(Thing) *)
Definition things := list (text * thing).
Definition thing_of (d : things) (n : text) : thing := match tget d n with Some x => x | None => no_thing end.

(* t[a:b] for an a that may be negative *)
Definition from_end (t : text) (a : Z) : nat :=
  if (a <? 0)%Z then Z.to_nat (Z.max 0 (Z.of_nat (length t) + a)) else Z.to_nat a.
(* Pseudocode.py:538-539 *)
Definition preceding_text (st : text) (s : nat) : text :=
  str_replace [10%N] (tx "\n") (slice (from_end st (Z.of_nat s - 100)) s st).
(* Pseudocode.py:541-553 *)
Definition incomplete (st : text) (s : nat) : bool :=
  text_in (tx " replaces-step=") (preceding_text st s)
  || text_in (tx "this method performs the following steps to prepare the Strings:") (preceding_text st s).

(* Pseudocode.py:572, 581 *)
Definition may_ignore (h : header) : bool := is_prefix (tx "op: discriminated by") (h_species h).
(* Pseudocode.py:570-572, 579-581 *)
Definition head_def (h : header) (d : things) (n : text) (x : option anode) : things :=
  let t := thing_of d n in tset d n (mkThing (defs t ++ [x]) (uses t) (may_ignore h)).
(* Pseudocode.py:565-574 *)
Fixpoint each_param (h : header) (d : things) (ps : list param) : res things :=
  match ps with
  | [] => Ok d
  | p :: ps' =>
    do x <- match p_decl p with
            | Some dn => do ch <- ch_of dn ;; do c <- item ch 0 ;; Ok (Some c)
            | None => Ok None
            end ;;
    each_param h (head_def h d (p_name p) x) ps'
  end.
(* Pseudocode.py:576-581 *)
Definition for_var (st : text) (h : header) (d : things) : res things :=
  match h_for h with
  | None => Ok d
  | Some fp =>
    do r <- rhs_of fp ;;
    if text_in (tx "{var}") r then
      do ch <- ch_of fp ;; do c <- item ch 1 ;; do n <- source_text st c ;; Ok (head_def h d n (Some c))
    else Ok d
  end.
(* Pseudocode.py:588, 591 *)
Definition defvar_prod : text := tx "{DEFVAR} : {var}".
Definition sorted_prod : text :=
  tx "{EXPR} : a List whose elements are the elements of {var} ordered as if an Array of the same values had been sorted using {percent_word} using {LITERAL} as {var}".
(* Pseudocode.py:583-598 *)
Definition body_var (st : text) (d : things) (v : visit) : res things :=
  do l <- lhs_of (v_node v) ;;
  if text_eqb l (tx "{var}") then
    do n <- source_text st (v_node v) ;;
    let t := thing_of d n in
    match v_anc v with
    | [] => Err AttributeError
    | p :: _ =>
      do pp <- prod_of p ;;
      if text_eqb pp defvar_prod then Ok (tset d n (mkThing (defs t ++ [Some (v_node v)]) (uses t) (okay t)))
      else
        do neither <- (if text_eqb pp sorted_prod then do ch <- ch_of p ;; do _ <- item ch 3 ;; Ok (v_index v =? 3) else Ok false) ;;
        if neither : bool then Ok (tset d n t)
        else Ok (tset d n (mkThing (defs t) (uses t ++ [v_node v]) (okay t)))
    end
  else Ok d.
Fixpoint body_vars (st : text) (d : things) (vs : list visit) : res things :=
  match vs with [] => Ok d | v :: vs' => do d' <- body_var st d v ;; body_vars st d' vs' end.
(* Pseudocode.py:600-620, for the root of the algorithm and a name *)
Definition report (root : anode) (kv : text * thing) : res (list msg) :=
  let (n, t) := kv in
  do a <- (match defs t, uses t with
           | x :: _, [] =>
             if okay t then Ok []
             else msg_at_node (match x with Some d => d | None => root end) (n ++ tx " is not used in this algorithm")
           | _, _ => Ok []
           end) ;;
  do b <- (match uses t, defs t with
           | u :: _, [] => msg_at_node u (n ++ tx " is not defined in this algorithm")
           | _, _ => Ok []
           end) ;;
  Ok (a ++ b).
(* sorted(d.items()) for a dictionary with strings as keys *)
Definition sorted_items {A} (d : list (text * A)) : list (text * A) := isort (fun a b => text_leb (fst a) (fst b)) d.
(* Pseudocode.py:528-620  check_vars_in_anode *)
Definition check_vars_in_anode (st : text) (root : option anode) (h : header) : res (list msg) :=
  match root with
  | None => Ok []
  | Some a =>
    do s <- posn_of a ;;
    if incomplete st s then Ok []
    else
      do d <- each_param h [] (h_params h) ;;
      do d <- for_var st h d ;;
      do d <- body_vars st d (each_desc [] 0 a) ;;
      each_msg (report a) (sorted_items d)
  end.
(* algos.py:106-117, 130-135: the headers of an algorithm with their definitions, each with its trees *)
Definition alg : Type := list (header * list (list (option anode))).
(* Pseudocode.py:519-523  the algorithms in the order in which they are checked *)
Definition in_order (ops bifs : list (text * alg)) : list alg := map snd (sorted_items ops ++ sorted_items bifs).
(* Pseudocode.py:508-526  check_vars *)
Definition check_vars (st : text) (ops bifs : list (text * alg)) : res (list msg) :=
  each_msg (fun al => each_msg (fun hd => each_msg (fun defn => each_msg (fun a => check_vars_in_anode st a (fst hd)) defn) (snd hd)) al)
    (in_order ops bifs).

(* ------------------------------------------------------------------ *)
(* Pseudocode.py:674-708  each_if_arm; the parts of the command are as deep as the fuel *)
Definition two_of {A} (l : list A) : res (A * A) := match l with [a; b] => Ok (a, b) | _ => Err ValueError end.
Fixpoint each_if_arm (fuel : nat) (n : anode) : res (list anode) :=
  match fuel with
  | O => Err OutOfFuel
  | S f =>
    do l <- lhs_of n ;; do r <- rhs_of n ;; do ch <- ch_of n ;;
    if text_eqb l (tx "{IF_CLOSED}") then
      (fix go (cs : list anode) : res (list anode) :=
         match cs with
         | [] => Ok []
         | c :: cs' =>
           do cl <- lhs_of c ;;
           do _ <- assert_ (lhs_in cl [tx "{SMALL_COMMAND}"; tx "{CONDITION}"]) ;;
           do rest <- go cs' ;;
           Ok (if text_eqb cl (tx "{SMALL_COMMAND}") then c :: rest else rest)
         end) ch
    else if text_eqb l (tx "{IF_OTHER}") then
      do _ <- assert_ (text_eqb r (tx "{IF_OPEN}{IF_TAIL}")) ;;
      do (a, b) <- two_of ch ;;
      do x <- each_if_arm f a ;; do y <- each_if_arm f b ;; Ok (x ++ y)
    else if lhs_in l [tx "{IF_OPEN}"; tx "{ELSEIF_PART}"] then
      do (a, b) <- two_of ch ;;
      do bl <- lhs_of b ;;
      do _ <- assert_ (lhs_in bl [tx "{IND_COMMANDS}"; tx "{SMALL_COMMAND}"]) ;;
      Ok [b]
    else if text_eqb l (tx "{IF_TAIL}") then
      if text_eqb r (tx "{EPSILON}") then match ch with [] => Ok [] | _ :: _ => Err ValueError end
      else if text_eqb r (tx "{_NL_N} {ELSEIF_PART}{IF_TAIL}") then
        do (a, b) <- two_of ch ;;
        do x <- each_if_arm f a ;; do y <- each_if_arm f b ;; Ok (x ++ y)
      else if text_eqb r (tx "{_NL_N} {ELSE_PART}") then
        match ch with [a] => each_if_arm f a | _ => Err ValueError end
      else Err AssertionError
    else if text_eqb l (tx "{ELSE_PART}") then
      do b <- (match rev ch with b :: _ => Ok b | [] => Err IndexError end) ;;
      do bl <- lhs_of b ;;
      do _ <- assert_ (lhs_in bl [tx "{IND_COMMANDS}"; tx "{SMALL_COMMAND}"; tx "{COMMAND}"]) ;;
      Ok [b]
    else Err AssertionError
  end.
(* how deep a tree is *)
Fixpoint depth (n : anode) : nat :=
  match n with Leaf _ => 1 | Node _ _ _ _ ch => S (fold_right (fun c m => Nat.max (depth c) m) 0 ch) end.
(* the values of a function of a list *)
Fixpoint map_res {A B} (f : A -> res B) (l : list A) : res (list B) :=
  match l with [] => Ok [] | x :: l' => do y <- f x ;; do ys <- map_res f l' ;; Ok (y :: ys) end.
(* os.path.commonprefix of the standard library: the prefix that the least and
   the greatest of some strings have in common *)
Definition least (l : list text) : text :=
  match l with [] => [] | x :: l' => fold_left (fun m y => if text_leb m y then m else y) l' x end.
Definition greatest (l : list text) : text :=
  match l with [] => [] | x :: l' => fold_left (fun m y => if text_leb y m then m else y) l' x end.
Fixpoint common (a b : text) : text :=
  match a, b with
  | x :: a', y :: b' => if (x =? y)%N then x :: common a' b' else []
  | _, _ => []
  end.
Definition commonprefix (l : list text) : text := common (least l) (greatest l).
Section Words.
(* which characters beyond ASCII match \w *)
Variable uniword : N -> bool.
(* Pseudocode.py:669  one alternative: a keyword with _\w+_ after it and another keyword;
   the number of characters that \w+ takes is given back one by one *)
Fixpoint take_back (k : nat) (after t : text) : bool :=
  match k with
  | O => false
  | S k' => is_prefix after (skipn k t) || take_back k' after t
  end.
Fixpoint word_run (t : text) : nat := match t with c :: t' => if wordc uniword c then S (word_run t') else 0 | [] => 0 end.
Definition var_then (before after t : text) : bool :=
  is_prefix before t && (let t' := skipn (length before) t in take_back (word_run t') after t').
(* Pseudocode.py:669  re.match(r'return |let _\w+_ be |set _\w+_ to ', pre) *)
Definition same_thing (pre : text) : bool :=
  is_prefix (tx "return ") pre || var_then (tx "let _") (tx "_ be ") pre || var_then (tx "set _") (tx "_ to ") pre.
(* whether all are the same: len(set(...)) == 1 of a list that is not empty *)
Definition all_same (l : list text) : bool := match l with [] => false | x :: l' => forallb (text_eqb x) l' end.
(* Pseudocode.py:640-672, for a node *)
Definition check_if (st : text) (v : visit) : res (list msg) :=
  let d := v_node v in
  do l <- lhs_of d ;;
  if text_eqb l (tx "{IF_OTHER}") then
    do arms <- each_if_arm (depth d) d ;;
    do _ <- assert_ (0 <? length arms) ;;
    if length arms =? 1 then Ok []
    else
      do nts <- map_res lhs_of arms ;;
      if all_same nts then Ok []
      else msg_at_node d (tx "If-command has 'unbalanced' arms: " ++ joined [32%N] nts)
  else if text_eqb l (tx "{IF_CLOSED}") then
    do arms <- each_if_arm (depth d) d ;;
    do _ <- assert_ (1 <? length arms) ;;
    do texts <- map_res (source_text st) arms ;;
    if same_thing (commonprefix texts) then Ok []
    else msg_at_node d (tx "If-command branches don't all 'do the same thing'")
  else Ok [].
(* Pseudocode.py:625-672  check_for_unbalanced_ifs *)
Definition check_ifs_in_anode (st : text) (root : option anode) : res (list msg) :=
  match root with None => Ok [] | Some a => each_msg (check_if st) (each_desc [] 0 a) end.
Definition check_for_unbalanced_ifs (st : text) (ops bifs : list (text * alg)) : res (list msg) :=
  each_msg (fun al => each_msg (fun hd => each_msg (fun defn => each_msg (check_ifs_in_anode st) defn) (snd hd)) al)
    (in_order ops bifs).
End Words.

(* ------------------------------------------------------------------ *)
(* Pseudocode.py:804-833  single_or_multi: true for 'M' *)
Definition multi_starts : list text := [tx "a "; tx "an "; tx "an? "; tx "any"; tx "some "].
Definition multi_whole : list text := [
  tx "ECMAScript source text"; tx "source text"; tx "the Environment Record for a |Catch| clause";
  tx "the execution context of a generator"; tx "the single code point {code_point_lit} or {code_point_lit}";
  tx "the {nonterminal} of an? {nonterminal}" ].
Definition single_whole : list text := [tx "-1"; tx "{LITERAL_ISH}"; tx "{LITERAL}"; tx "{nonterminal}"].
Definition rhs_kind (r : text) : res bool :=
  if existsb (fun p => is_prefix p r) multi_starts then Ok true
  else if lhs_in r multi_whole then Ok true
  else if lhs_in r single_whole then Ok false
  else Err AssertionError.
Definition single_or_multi (n : anode) : res bool :=
  do l <- lhs_of n ;; do _ <- assert_ (text_eqb l (tx "{VAL_DESC}")) ;; do r <- rhs_of n ;; rhs_kind r.
Definition kind_char (m : bool) : N := if m then 77%N else 83%N.
(* re.fullmatch of M*S* and of SSS+, on the string of the kinds *)
Fixpoint multis_first (l : list bool) : bool :=
  match l with [] => true | true :: l' => multis_first l' | false :: l' => forallb negb l' end.
Definition three_singles (l : list bool) : bool := (3 <=? length l) && forallb negb l.
(* Pseudocode.py:752-754 *)
Definition disj : text := tx "{VAL_DESC_DISJUNCTION}".
Fixpoint drop_spaces (t : text) : text := match t with c :: t' => if py_space c then drop_spaces t' else t | [] => [] end.
Definition rstrip (t : text) : text := rev (drop_spaces (rev t)).
Definition is_suffix (s t : text) : bool := is_prefix (rev s) (rev t).
Definition prefix_of (r : text) : text := rstrip (firstn (length r - length disj) r).
(* Pseudocode.py:759-764 *)
Definition prose_prods : list text := [
  tx "{CONDITION_1} : {EX} is {VALUE_DESCRIPTION}";
  tx "{CONDITION_1} : {EX} is not {VALUE_DESCRIPTION}";
  tx "{VAL_DESC} : a normal completion containing {VALUE_DESCRIPTION}";
  tx "{VAL_DESC} : an Abstract Closure that takes {VAL_DESC} and {VAL_DESC} and returns {VALUE_DESCRIPTION}" ].
(* Pseudocode.py:771-777 *)
Definition is_decl (l r : text) : bool :=
  lhs_in l [tx "{OP_SIGNATURE}"; tx "{PARAMETER_DECL}"; tx "{FIELD_VALUE_TYPE}"]
  || is_prefix (tx "{VAL_DESC} : a Record with fields") (prod_str l r)
  || text_eqb (prod_str l r) (tx "{VALUE_DESCRIPTION} : {VAL_DESC}, but not {VALUE_DESCRIPTION}").
(* Pseudocode.py:758-788 *)
Definition preferred_prefix (gl gr : text) (ch : list anode) (kinds : list bool) : res text :=
  if lhs_in (prod_str gl gr) prose_prods then Ok (if three_singles kinds then tx "one of" else tx "either")
  else if is_decl gl gr then
    do vd0 <- item ch 0 ;;
    do r0 <- rhs_of vd0 ;;
    Ok (if text_eqb r0 (tx "a normal completion containing {VALUE_DESCRIPTION}") then tx "either" else [])
  else Err AssertionError.
(* Pseudocode.py:724-797  check_val_desc_disjunction *)
Definition check_disjunction (v : visit) : res (list msg) :=
  let d := v_node v in
  do ch <- ch_of d ;;
  do kinds <- map_res single_or_multi ch ;;
  do a <- (if multis_first kinds then Ok []
           else msg_at_node d
             (tx "In a VAL_DESC_DISJUNCTION, the multi-valued terms should come before the single-valued terms, but here the terms are '"
              ++ map kind_char kinds ++ tx "'")) ;;
  match v_anc v with
  | [] => Err AttributeError
  | vd :: anc' =>
    do l <- lhs_of vd ;; do _ <- assert_ (text_eqb l (tx "{VALUE_DESCRIPTION}")) ;;
    do r <- rhs_of vd ;; do _ <- assert_ (is_suffix disj r) ;;
    match anc' with
    | [] => Err AttributeError
    | g :: _ =>
      do gl <- lhs_of g ;; do gr <- rhs_of g ;;
      do want <- preferred_prefix gl gr ch kinds ;;
      do b <- (if text_eqb (prefix_of r) want then Ok []
               else msg_at_node d (tx "this VAL_DESC_DISJUNCTION should be preceded by '" ++ want ++ tx "' rather than '"
                                   ++ prefix_of r ++ tx "'")) ;;
      Ok (a ++ b)
    end
  end.
(* Pseudocode.py:711-722, for the syntax tree of an element *)
Definition check_desc (v : visit) : res (list msg) :=
  do l <- lhs_of (v_node v) ;; if text_eqb l disj then check_disjunction v else Ok [].
Definition check_value_descriptions (tree : anode) : res (list msg) := each_msg check_desc (each_desc [] 0 tree).

(* ------------------------------------------------------------------ *)
(* pseudocode.grammar:1284-1490  the right-hand sides of {VAL_DESC}, characters beyond ASCII by their UTF-8 bytes *)
Definition val_desc_alternatives : list text := [
  tx "ECMAScript source text";
  tx "a <emu-not-ref>Unicode property name</emu-not-ref>";
  tx "a <emu-not-ref>Unicode property name</emu-not-ref> listed in the “<emu-not-ref>Property name</emu-not-ref>” column of {h_emu_xref}";
  tx "a <emu-not-ref>Unicode property name</emu-not-ref> or property alias listed in the “<emu-not-ref>Property name and aliases</emu-not-ref>” column of {h_emu_xref}";
  tx "a <emu-not-ref>Unicode property name</emu-not-ref> or property alias listed in the “<emu-not-ref>Property name and aliases</emu-not-ref>” column of {h_emu_xref} or {h_emu_xref}";
  tx "a BigInt";
  tx "a Boolean";
  tx "a CharSet";
  tx "a ClassFieldDefinition Record";
  tx "a ClassStaticBlockDefinition Record";
  tx "a Completion Record";
  tx "a Cyclic Module Record";
  tx "a Data Block";
  tx "a DataView";
  tx "a DataView With Buffer Witness Record";
  tx "a DisposableResource Record";
  tx "a FinalizationRegistry";
  tx "a For-In Iterator";
  tx "a Generator";
  tx "a GraphLoadingState Record";
  tx "a JSON Parse Record";
  tx "a JSON Serialization Record";
  tx "a Job Abstract Closure";
  tx "a JobCallback Record";
  tx "a List of {LIST_ELEMENTS_DESCRIPTION}";
  tx "a List of {LIST_ELEMENTS_DESCRIPTION} of length {dec_int_lit}";
  tx "a List of {LIST_ELEMENTS_DESCRIPTION} with length equal to {EX}";
  tx "a LoadedModuleRequest Record";
  tx "a Match Record";
  tx "a MatchState";
  tx "a Matcher";
  tx "a MatcherContinuation";
  tx "a Module Namespace Object";
  tx "a Module Record";
  tx "a ModuleRequest Record";
  tx "a NaN";
  tx "a Number";
  tx "a Parse Node";
  tx "a Private Name";
  tx "a PrivateElement";
  tx "a PrivateEnvironment Record";
  tx "a Promise";
  tx "a PromiseCapability Record";
  tx "a PromiseCapability Record for an intrinsic {percent_word}";
  tx "a PromiseReaction Record";
  tx "a Property Descriptor";
  tx "a Proxy exotic object";
  tx "a ReadModifyWriteSharedMemory event";
  tx "a ReadSharedMemory or ReadModifyWriteSharedMemory event";
  tx "a Realm Record";
  tx "a Record whose field names are intrinsic keys and whose values are objects";
  tx "a Record with fields {dsb_word} ({VALUE_DESCRIPTION}) and {dsb_word} ({VALUE_DESCRIPTION})";
  tx "a Record with fields {dsb_word} ({VALUE_DESCRIPTION}), {dsb_word} ({VALUE_DESCRIPTION}), and {dsb_word} ({VALUE_DESCRIPTION})";
  tx "a Reference Record";
  tx "a RegExp Record";
  tx "a ResolvedBinding Record";
  tx "a Script Record";
  tx "a Set Record";
  tx "a Set of Memory events";
  tx "a Set of Shared Data Block events";
  tx "a Shared Data Block";
  tx "a Shared Data Block event";
  tx "a SharedArrayBuffer";
  tx "a Source Text Module Record";
  tx "a String";
  tx "a String exotic object";
  tx "a String of length 2 or 3";
  tx "a String of length 4";
  tx "a String which is the name of a TypedArray constructor in {h_emu_xref}";
  tx "a Super Reference Record";
  tx "a Symbol";
  tx "a Synchronize event";
  tx "a Synthetic Module Record";
  tx "a Time Zone Identifier Record";
  tx "a TypedArray";
  tx "a TypedArray With Buffer Witness Record";
  tx "a TypedArray element type";
  tx "a UTF-16 code unit";
  tx "a Uint8Array";
  tx "a Unicode code point";
  tx "a Unicode property value";
  tx "a Unicode property value or property value alias for the General_Category (gc) property listed in {h_a}";
  tx "a Waiter Record";
  tx "a WaiterList Record";
  tx "a WeakRef";
  tx "a WriteSharedMemory event";
  tx "a `JSON.parse` built-in function object (see {h_emu_xref})";
  tx "a binary Unicode property or binary property alias listed in the “<emu-not-ref>Property name and aliases</emu-not-ref>” column of {h_emu_xref}, or a binary Unicode property of strings listed in the “<emu-not-ref>Property name</emu-not-ref>” column of {h_emu_xref}";
  tx "a binary property of strings listed in the “<emu-not-ref>Property name</emu-not-ref>” column of {h_emu_xref}";
  tx "a bound function exotic object";
  tx "a break completion";
  tx "a built-in function object";
  tx "a callable Object";
  tx "a candidate execution";
  tx "a candidate execution Record";
  tx "a canonical, unaliased <emu-not-ref>Unicode property name</emu-not-ref> listed in the “<emu-not-ref>Canonical property name</emu-not-ref>” column of {h_emu_xref}";
  tx "a character";
  tx "a code point";
  tx "a code unit";
  tx "a constructor";
  tx "a continue completion";
  tx "a finite Number";
  tx "a finite time value";
  tx "a fully populated Property Descriptor";
  tx "a function object";
  tx "a function object that returns a promise";
  tx "a function that returns a promise for an IteratorResult object";
  tx "a function that returns an IteratorResult object";
  tx "a function that returns an async iterator object";
  tx "a function that returns an iterator object";
  tx "a grammar symbol";
  tx "a leading surrogate";
  tx "a mathematical value";
  tx "a module namespace exotic object";
  tx "a non-empty List of {LIST_ELEMENTS_DESCRIPTION}";
  tx "a non-negative extended mathematical value";
  tx "a non-negative finite Number";
  tx "a non-negative integer";
  tx "a non-negative integer that is evenly divisible by 4";
  tx "a non-negative integral Number";
  tx "a non-primary time zone identifier in this implementation";
  tx "a nonterminal in one of the ECMAScript grammars";
  tx "a normal completion";
  tx "a normal completion containing {VALUE_DESCRIPTION}";
  tx "a positive integer";
  tx "a possibly empty List";
  tx "a property key";
  tx "a property key or Private Name";
  tx "a property name";
  tx "a property value or property value alias for the Unicode property {var} listed in {h_a}";
  tx "a read-modify-write modification function";
  tx "a return completion";
  tx "a sequence of 2 or more code points";
  tx "a sequence of Unicode code points";
  tx "a sequence of characters";
  tx "a set of algorithm steps";
  tx "a synthetic function created by ClassStaticBlockDefinitionEvaluation step {h_emu_xref}";
  tx "a throw completion";
  tx "a time value";
  tx "a trailing surrogate";
  tx "a valid JSON text as specified in ECMA-404";
  tx "a {ERROR_TYPE} object";
  tx "a {h_emu_xref}";
  tx "an ASCII digit code unit ({hex_int_lit} through {hex_int_lit}, inclusive)";
  tx "an ASCII lowercase letter code unit ({hex_int_lit} through {hex_int_lit}, inclusive)";
  tx "an Abstract Closure";
  tx "an Abstract Closure that takes {VAL_DESC} and returns {VALUE_DESCRIPTION}";
  tx "an Abstract Closure that takes {VAL_DESC} and {VAL_DESC} and returns {VALUE_DESCRIPTION}";
  tx "an Abstract Closure with no parameters";
  tx "an Abstract Closure with two parameters";
  tx "an Array";
  tx "an Array exotic object";
  tx "an ArrayBuffer";
  tx "an ArrayBuffer or SharedArrayBuffer";
  tx "an AsyncGenerator";
  tx "an ECMAScript code execution context";
  tx "an ECMAScript function object";
  tx "an ECMAScript language value";
  tx "an Environment Record";
  tx "an ImportAttribute Record";
  tx "an Iterator Record";
  tx "an Object";
  tx "an Object that conforms to the IteratorResult interface";
  tx "an Object that has a {dsb_word} internal slot";
  tx "an Object that is defined by either an {nonterminal} or an {nonterminal}";
  tx "an abrupt completion";
  tx "an agent signifier";
  tx "an arguments exotic object";
  tx "an array index";
  tx "an empty List";
  tx "an execution context";
  tx "an extensible object that does not have a {starred_str} own property";
  tx "an extensible ordinary object with no own properties";
  tx "an immutable prototype exotic object";
  tx "an initialized RegExp instance";
  tx "an instance of a concrete subclass of Module Record";
  tx "an instance of a nonterminal";
  tx "an instance of a production in {h_emu_xref}";
  tx "an instance of the production {h_emu_grammar}";
  tx "an instance of {var}";
  tx "an integer";
  tx "an integer in {INTERVAL}";
  tx "an integer index";
  tx "an integer ≥ {dsb_word}";
  tx "an integral Number";
  tx "an internal slot name";
  tx "an iterator object";
  tx "an odd integral Number";
  tx "an ordinary object";
  tx "an ordinary, extensible object";
  tx "an ordinary, extensible object with no non-configurable properties";
  tx "an? {ENVIRONMENT_RECORD_KIND} Environment Record";
  tx "an? {PROPERTY_KIND} property";
  tx "an? {nonterminal}";
  tx "an? {nonterminal} Parse Node";
  tx "any value except a Completion Record";
  tx "anything";
  tx "either a WriteSharedMemory or ReadModifyWriteSharedMemory event";
  tx "some other definition of a function's behaviour provided in this specification";
  tx "source text";
  tx "the Environment Record for a |Catch| clause";
  tx "the execution context of a generator";
  tx "the single code point {code_point_lit}";
  tx "the {nonterminal} of an? {nonterminal}";
  tx "{LITERAL_ISH}";
  tx "{LITERAL}";
  tx "{nonterminal}" ].
(* pseudocode.grammar:70, 71, 72, 84, 85, 104, 494, 499, 1269, 1335, 1336, 1407, 1430, 1431
   the productions with {VALUE_DESCRIPTION} on the right-hand side *)
Definition value_description_contexts : list (text * text) := [
  (tx "{FIELD_VALUE_TYPE}", tx "{VALUE_DESCRIPTION}");
  (tx "{FIELD_VALUE_TYPE}", tx "{_indent_}{nlai}{VALUE_DESCRIPTION}{_outdent_}{nlai}");
  (tx "{FIELD_VALUE_TYPE}", tx "{_indent_}{nlai}{VALUE_DESCRIPTION} (default value is {LITERAL}){_outdent_}{nlai}");
  (tx "{OP_SIGNATURE}", tx "{WHICH_SEMANTICS}{OP_NAME} ( ): {VALUE_DESCRIPTION}");
  (tx "{OP_SIGNATURE}", tx "{_indent_}{nlai}{WHICH_SEMANTICS}{OP_NAME} ({_indent_}{PARAMETER_DECLS}{_outdent_}{nlai}): {VALUE_DESCRIPTION}{_outdent_}{nlai}");
  (tx "{PARAMETER_DECL}", tx "{nlai}{OPTIONALITY}{var}: {VALUE_DESCRIPTION},");
  (tx "{CONDITION_1}", tx "{EX} is not {VALUE_DESCRIPTION}");
  (tx "{CONDITION_1}", tx "{EX} is {VALUE_DESCRIPTION}");
  (tx "{VALUE_DESCRIPTION}", tx "{VAL_DESC}, but not {VALUE_DESCRIPTION}");
  (tx "{VAL_DESC}", tx "a Record with fields {dsb_word} ({VALUE_DESCRIPTION}) and {dsb_word} ({VALUE_DESCRIPTION})");
  (tx "{VAL_DESC}", tx "a Record with fields {dsb_word} ({VALUE_DESCRIPTION}), {dsb_word} ({VALUE_DESCRIPTION}), and {dsb_word} ({VALUE_DESCRIPTION})");
  (tx "{VAL_DESC}", tx "a normal completion containing {VALUE_DESCRIPTION}");
  (tx "{VAL_DESC}", tx "an Abstract Closure that takes {VAL_DESC} and returns {VALUE_DESCRIPTION}");
  (tx "{VAL_DESC}", tx "an Abstract Closure that takes {VAL_DESC} and {VAL_DESC} and returns {VALUE_DESCRIPTION}") ].
