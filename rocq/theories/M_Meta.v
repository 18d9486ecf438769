(* Model of the reader of <emu-grammar> elements: the regular expressions it uses, simple_parse with
   its metagrammar, and parse_emu_grammar, emu_grammars.py:81-594. *)
From Coq Require Import Ascii String.
From Verif Require Import M_Base M_HTML.
Open Scope string_scope.
Open Scope nat_scope.
Open Scope list_scope.
Notation length := Datatypes.length.

(* ---------------------------------------------------------------------------------------------- *)
(* The part of Python's re that the patterns at emu_grammars.py:301-372 use.                        *)

Inductive citem := CRange (lo hi : N) | CWord.

(* RSet is a set of characters (a literal character is a set of one), RStar is greedy. *)
Inductive rx :=
| REps
| RSet (neg : bool) (items : list citem)
| RSeq (a b : rx)
| RAlt (a b : rx)
| RStar (a : rx)
| RGroup (a : rx).

Definition is_char (c : ascii) (x : N) : bool := (x =? N_of_ascii c)%N.

(* re: the items of a character class, up to the closing bracket.  A bracket at the very start is an
   ordinary character ([first]). *)
Fixpoint class_items (fuel : nat) (first : bool) (s : text) : option (list citem * text) :=
  match fuel with
  | O => None
  | S f =>
      match s with
      | [] => None
      | c :: s1 =>
          if is_char "]" c && negb first then Some ([], s1)
          else match s1 with
               | d :: e :: s2 =>
                   if is_char "-" d && negb (is_char "]" e)
                   then match class_items f false s2 with
                        | Some (is_, r) => Some (CRange c e :: is_, r)
                        | None => None
                        end
                   else match class_items f false s1 with
                        | Some (is_, r) => Some (CRange c c :: is_, r)
                        | None => None
                        end
               | _ => match class_items f false s1 with
                      | Some (is_, r) => Some (CRange c c :: is_, r)
                      | None => None
                      end
               end
      end
  end.

(* re: a postfix operator after an atom *)
Definition postfix (a : rx) (s : text) : rx * text :=
  match s with
  | c :: s' =>
      if is_char "*" c then (RStar a, s')
      else if is_char "+" c then (RSeq a (RStar a), s')
      else if is_char "?" c then (RAlt a REps, s')
      else (a, s)
  | [] => (a, s)
  end.

(* re.compile for alternatives, sequences, groups, classes, \n, \w and escaped characters; other
   characters stand for themselves.  [alt] says whether alternatives or a sequence are asked for. *)
Fixpoint rx_parse (fuel : nat) (alt : bool) (s : text) : option (rx * text) :=
  match fuel with
  | O => None
  | S f =>
      if alt then
        match rx_parse f false s with
        | Some (a, c :: s') =>
            if is_char "|" c
            then match rx_parse f true s' with
                 | Some (b, r) => Some (RAlt a b, r)
                 | None => None
                 end
            else Some (a, c :: s')
        | x => x
        end
      else
        let next (a : rx) (r : text) :=
          let '(a', r') := postfix a r in
          match rx_parse f false r' with
          | Some (b, q) => Some (RSeq a' b, q)
          | None => None
          end in
        match s with
        | [] => Some (REps, [])
        | c :: s' =>
            if is_char "|" c || is_char ")" c then Some (REps, s)
            else if is_char "(" c then
              match rx_parse f true s' with
              | Some (a, d :: r) => if is_char ")" d then next (RGroup a) r else None
              | _ => None
              end
            else if is_char "[" c then
              match s' with
              | d :: s'' =>
                  if is_char "^" d
                  then match class_items f true s'' with
                       | Some (is_, r) => next (RSet true is_) r
                       | None => None
                       end
                  else match class_items f true s' with
                       | Some (is_, r) => next (RSet false is_) r
                       | None => None
                       end
              | [] => None
              end
            else if is_char "\" c then
              match s' with
              | d :: r =>
                  if is_char "w" d then next (RSet false [CWord]) r
                  else if is_char "n" d then next (RSet false [CRange 10 10]) r
                  else next (RSet false [CRange d d]) r
              | [] => None
              end
            else next (RSet false [CRange c c]) s'
        end
  end.

Definition rx_compile (pattern : string) : option rx :=
  let s := tx pattern in
  match rx_parse (3 * length s + 3) true s with
  | Some (a, []) => Some a
  | _ => None
  end.

Section Meta.
(* which characters beyond ASCII \w matches *)
Variable uniword : N -> bool.

Definition in_range (lo hi c : N) : bool := (lo <=? c)%N && (c <=? hi)%N.

(* re: \w *)
Definition is_word (c : N) : bool :=
  in_range 48 57 c || in_range 65 90 c || in_range 97 122 c || (c =? 95)%N || ((128 <=? c)%N && uniword c).

Definition citem_has (i : citem) (c : N) : bool :=
  match i with CRange lo hi => in_range lo hi c | CWord => is_word c end.

Definition set_has (neg : bool) (items : list citem) (c : N) : bool :=
  xorb neg (existsb (fun i => citem_has i c) items).

(* re: all matches at the start of the text, in the order in which they are tried; a match is what is
   left of the text and the texts of the groups.  The first one is what re.match returns. *)
Fixpoint rx_matches (r : rx) (s : text) : list (text * list text) :=
  match r with
  | REps => [(s, [])]
  | RSet neg items => match s with c :: s' => if set_has neg items c then [(s', [])] else [] | [] => [] end
  | RSeq a b => flat_map (fun '(s1, g) => map (fun '(s2, h) => (s2, g ++ h)) (rx_matches b s1)) (rx_matches a s)
  | RAlt a b => rx_matches a s ++ rx_matches b s
  | RStar a =>
      (fix star (n : nat) (s : text) : list (text * list text) :=
         match n with
         | O => [(s, [])]
         | S n' =>
             flat_map (fun '(s1, g) => if length s1 <? length s then map (fun '(s2, h) => (s2, g ++ h)) (star n' s1) else [])
                      (rx_matches a s) ++ [(s, [])]
         end) (length s) s
  | RGroup a => map (fun '(s1, g) => (s1, firstn (length s - length s1) s :: g)) (rx_matches a s)
  end.

(* re.compile(pattern).match(text, posn): the end of the match and the groups *)
Definition re_match (pattern : string) (t : text) (posn : nat) : res (option (nat * list text)) :=
  match rx_compile pattern with
  | None => Err ValueError                                                      (* re.error *)
  | Some r =>
      match rx_matches r (skipn posn t) with
      | [] => Ok None
      | (rest, gs) :: _ => Ok (Some (length t - length rest, gs))
      end
  end.

(* ---------------------------------------------------------------------------------------------- *)

(* emu_grammars.py:301-372: the kinds of goals and of results *)
Inductive pkind := PAlt | PCat | POpt | PList | PRe.                          (* '|' '_' '?' '+' '/' *)
Inductive rkind := RNode | RUp | RNone.                                       (* 'n' '^' ' ' *)
Definition mgrammar := list (string * (pkind * rkind * list string)).

Fixpoint mget (g : mgrammar) (goal : string) : option (pkind * rkind * list string) :=
  match g with
  | [] => None
  | (k, v) :: g' => if String.eqb k goal then Some v else mget g' goal
  end.

(* emu_grammars.py:598-602 *)
Inductive gnode := GNode (kind : string) (start_posn end_posn : nat) (groups : list text) (children : list gnode).
Definition g_kind (n : gnode) := let '(GNode k _ _ _ _) := n in k.
Definition g_start (n : gnode) := let '(GNode _ s _ _ _) := n in s.
Definition g_end (n : gnode) := let '(GNode _ _ e _ _) := n in e.
Definition g_groups (n : gnode) := let '(GNode _ _ _ g _) := n in g.
Definition g_children (n : gnode) := let '(GNode _ _ _ _ c) := n in c.

(* emu_grammars.py:541-545, 565, 570: what is said to have been expected *)
Inductive expectation := ExpPattern (goal pattern : string) | ExpIndent (i : option Z) | ExpEnd.

(* A step of the reader: the failures logged by maybe_log_expectation, in order, and the outcome. *)
Definition logged (A : Type) : Type := (list (nat * expectation) * res A)%type.
Definition wret {A} (r : res A) : logged A := ([], r).
Definition wbind {A B} (m : logged A) (k : A -> logged B) : logged B :=
  match m with
  | (l, Ok a) => let '(l', r) := k a in (l ++ l', r)
  | (l, Err e) => (l, Err e)
  end.

(* what attempt returns (emu_grammars.py:391-397): position, indentation, node *)
Notation outcome := (option (nat * option Z * option gnode)).

(* re.fullmatch(r'[A-Z_]+', goal), emu_grammars.py:411 *)
Fixpoint all_caps (s : text) : bool :=
  match s with [] => true | c :: s' => (in_range 65 90 c || (c =? 95)%N) && all_caps s' end.
Definition looks_like_name (goal : string) : bool := match tx goal with [] => false | s => all_caps s end.

Definition opt_list {A} (o : option A) : list A := match o with Some a => [a] | None => [] end.

Definition eqb_indent (a b : option Z) : bool :=
  match a, b with Some x, Some y => (x =? y)%Z | None, None => true | _, _ => false end.

(* emu_grammars.py:556, 559 *)
Definition shift (i : option Z) (d : Z) : res (option Z) := match i with Some x => Ok (Some (x + d)%Z) | None => Err TypeError end.

(* emu_grammars.py:536-582: a regular expression *)
Definition attempt_re (t : text) (end_posn : nat) (goal pattern : string) (rk : rkind) (p : nat) (ind : option Z) : logged outcome :=
  match re_match pattern t p with
  | Err e => wret (Err e)
  | Ok None => ([(p, ExpPattern goal pattern)], Ok None)
  | Ok (Some (q, groups)) =>
      let finish (ind' : option Z) : logged outcome :=
        match rk with
        | RNode => wret (Ok (Some (q, ind', Some (GNode goal p q groups []))))
        | RNone => wret (Ok (Some (q, ind', None)))
        | RUp => wret (Err AssertionError)
        end in
      if String.eqb goal "INDENT" then wbind (wret (shift ind 2)) finish
      else if String.eqb goal "OUTDENT" then wbind (wret (shift ind (-2))) finish
      else if String.eqb goal "NLAI" then
        let this_indent := (Z.of_nat q - Z.of_nat p - 1)%Z in
        if negb (this_indent mod 2 =? 0)%Z then wret (Err AssertionError)
        else if negb (eqb_indent (Some this_indent) ind) then ([(q, ExpIndent ind)], Ok None)
        else finish ind
      else if String.eqb goal "EOI" then
        if q <? end_posn then ([(q, ExpEnd)], Ok None) else finish ind
      else finish ind
  end.

Section Attempt.
  Variables (t : text) (end_posn : nat).
  Variable rec : string -> nat -> option Z -> logged outcome.

  (* emu_grammars.py:416-423 *)
  Fixpoint attempt_alts (rk : rkind) (args : list string) (p : nat) (ind : option Z) : logged outcome :=
    match args with
    | [] => wret (Ok None)
    | a :: args' =>
        wbind (rec a p ind) (fun r =>
        match r with
        | Some _ => match rk with RUp => wret (Ok r) | _ => wret (Err AssertionError) end
        | None => attempt_alts rk args' p ind
        end)
    end.

  (* emu_grammars.py:426-433, 447-453: one goal after the other.  The second component tells whether one failed,
     with the indentation at that point. *)
  Fixpoint attempt_seq (args : list string) (p : nat) (ind : option Z) : logged (nat * option Z * list gnode + option Z) :=
    match args with
    | [] => wret (Ok (inl (p, ind, [])))
    | a :: args' =>
        wbind (rec a p ind) (fun r =>
        match r with
        | None => wret (Ok (inr ind))
        | Some (p', ind', child) =>
            wbind (attempt_seq args' p' ind') (fun r' =>
            match r' with
            | inl (p'', ind'', children) => wret (Ok (inl (p'', ind'', opt_list child ++ children)))
            | inr i => wret (Ok (inr i))
            end)
        end)
    end.

  (* emu_grammars.py:425-444 *)
  Definition attempt_cat (goal : string) (rk : rkind) (args : list string) (p : nat) (ind : option Z) : logged outcome :=
    wbind (attempt_seq args p ind) (fun r =>
    match r with
    | inr _ => wret (Ok None)
    | inl (p', ind', children) =>
        match rk with
        | RNode => wret (Ok (Some (p', ind', Some (GNode goal p p' [] children))))
        | RUp => match children with [c] => wret (Ok (Some (p', ind', Some c))) | _ => wret (Err AssertionError) end
        | RNone => wret (Err AssertionError)
        end
    end).

  (* emu_grammars.py:446-478 *)
  Definition attempt_opt (goal : string) (rk : rkind) (args : list string) (p : nat) (ind : option Z) : logged outcome :=
    wbind (attempt_seq args p ind) (fun r =>
    match r with
    | inr ind' =>
        match rk with
        | RNode => wret (Ok (Some (p, ind', Some (GNode goal p p [] []))))
        | RUp => wret (Ok (Some (p, ind', Some (GNode "OMITTED_OPTIONAL" p p [] []))))
        | RNone => wret (Ok (Some (p, ind', None)))
        end
    | inl (p', ind', children) =>
        match rk with
        | RNode => wret (Ok (Some (p', ind', Some (GNode goal p p' [] children))))
        | RUp => match children with [c] => wret (Ok (Some (p', ind', Some c))) | _ => wret (Err AssertionError) end
        | RNone => wret (Ok (Some (p', ind', None)))
        end
    end).

  (* emu_grammars.py:501-524: [sep_start] is latest_sep_start_posn, unset before the first element.  An
     element that yields no node would be kept as None in Python; no element of the metagrammar does. *)
  Fixpoint attempt_loop (fuel : nat) (element separator : string) (sep_start : option nat) (p : nat) (ind : option Z)
    : logged (option (nat * option Z * list gnode)) :=
    match fuel with
    | O => wret (Err OutOfFuel)
    | S f =>
        wbind (rec element p ind) (fun r =>
        match r with
        | None => match sep_start with None => wret (Ok None) | Some s => wret (Ok (Some (s, ind, []))) end
        | Some (p', ind', node) =>
            wbind (rec separator p' ind') (fun r' =>
            match r' with
            | None => wret (Ok (Some (p', ind', opt_list node)))
            | Some (p'', ind'', _) =>
                wbind (attempt_loop f element separator (Some p') p'' ind'') (fun r'' =>
                match r'' with
                | None => wret (Ok None)
                | Some (q, i, nodes) => wret (Ok (Some (q, i, opt_list node ++ nodes)))
                end)
            end)
        end)
    end.

  (* a delimiter, if there is one (the empty string counts as none), emu_grammars.py:494-499, 526-531 *)
  Definition attempt_delim (delim : option string) (p : nat) (ind : option Z) : logged (option (nat * option Z)) :=
    match delim with
    | None => wret (Ok (Some (p, ind)))
    | Some d =>
        if String.eqb d "" then wret (Ok (Some (p, ind)))
        else wbind (rec d p ind) (fun r =>
             match r with None => wret (Ok None) | Some (p', ind', _) => wret (Ok (Some (p', ind'))) end)
    end.

  (* emu_grammars.py:480-534 *)
  Definition attempt_list (goal : string) (args : list string) (p : nat) (ind : option Z) : logged outcome :=
    match (match args with
           | [e; s] => Some (e, s, None, None)
           | [e; s; l; r] => Some (e, s, Some l, Some r)
           | _ => None
           end) with
    | None => wret (Err AssertionError)
    | Some (element, separator, left_delim, right_delim) =>
        wbind (attempt_delim left_delim p ind) (fun r0 =>
        match r0 with
        | None => wret (Ok None)
        | Some (p0, ind0) =>
            wbind (attempt_loop (S (length t)) element separator None p0 ind0) (fun r1 =>
            match r1 with
            | None => wret (Ok None)
            | Some (p1, ind1, nodes) =>
                wbind (attempt_delim right_delim p1 ind1) (fun r2 =>
                match r2 with
                | None => wret (Ok None)
                | Some (p2, ind2) => wret (Ok (Some (p2, ind2, Some (GNode goal p p2 [] nodes))))
                end)
            end)
        end)
    end.
End Attempt.

(* emu_grammars.py:390-585 *)
Fixpoint attempt (g : mgrammar) (t : text) (end_posn : nat) (depth : nat) (goal : string) (p : nat) (ind : option Z) : logged outcome :=
  match depth with
  | O => wret (Err OutOfFuel)
  | S d =>
      match mget g goal with
      | None =>
          if looks_like_name goal then wret (Err AssertionError)
          else attempt_re t end_posn goal goal RNone p ind
      | Some (PAlt, rk, args) => attempt_alts (attempt g t end_posn d) rk args p ind
      | Some (PCat, rk, args) => attempt_cat (attempt g t end_posn d) goal rk args p ind
      | Some (POpt, rk, args) => attempt_opt (attempt g t end_posn d) goal rk args p ind
      | Some (PList, _, args) => attempt_list t (attempt g t end_posn d) goal args p ind
      | Some (PRe, rk, [pattern]) => attempt_re t end_posn goal pattern rk p ind
      | Some (PRe, _, _) => wret (Err ValueError)
      end
  end.

(* emu_grammars.py:380-386: maybe_log_expectation *)
Definition log1 (m : nat * list expectation) (e : nat * expectation) : nat * list expectation :=
  let '(maxp, exps) := m in
  let '(p, x) := e in
  if maxp <? p then (p, [x]) else if p =? maxp then (maxp, exps ++ [x]) else (maxp, exps).

(* emu_grammars.py:376-594.  The left result is the tree; the right one is the position of the message
   and the expectations in it.  The depth of the recursion is bounded by the number of goals and
   patterns; Python's own limit is 1000. *)
Definition simple_parse (g : mgrammar) (t : text) (goal : string) (start_posn end_posn : nat) (start_indent : option Z)
  : res (option gnode + nat * list expectation) :=
  let '(l, r) := attempt g t end_posn (length g + 2) goal start_posn start_indent in
  do o <- r ;;
  match o with
  | None => Ok (inr (fold_left log1 l (start_posn, [])))
  | Some (q, ind, node) =>
      do _ <- assert_ (q =? end_posn) ;;
      do _ <- assert_ (eqb_indent ind start_indent) ;;
      Ok (inl node)
  end.

(* emu_grammars.py:301-372 *)
Definition metagrammar : mgrammar :=
  [ ("EMU_GRAMMAR_CONTENT_1", (PCat, RUp, ["ONELINE_PRODUCTION"; "EOI"]))
  ; ("EMU_GRAMMAR_CONTENT_2", (PCat, RUp, ["INDENT"; "BLOCK_PRODUCTIONS"; "OUTDENT"; "NLAI"; "EOI"]))
  ; ("BLOCK_PRODUCTIONS", (PList, RNode, ["BLOCK_PRODUCTION"; "\n"]))
  ; ("BLOCK_PRODUCTION", (PAlt, RUp, ["MULTILINE_PRODUCTION"; "_ONELINE_PRODUCTION"]))
  ; ("MULTILINE_PRODUCTION", (PCat, RNode, ["OPTIONAL_COMMENT_LINE"; "NLAI"; "GNT"; " "; "COLONS"; "MULTILINE_R"]))
  ; ("OPTIONAL_COMMENT_LINE", (POpt, RNone, ["NLAI"; "// emu-format ignore"]))
  ; ("MULTILINE_R", (PAlt, RUp, ["MULTILINE_ONE_OF"; "MULTILINE_RHSS"]))
  ; ("MULTILINE_ONE_OF", (PCat, RNode, [" one of"; "INDENT"; "NLAI"; "LINES_OF_BACKTICKED_THINGS"; "OUTDENT"]))
  ; ("LINES_OF_BACKTICKED_THINGS", (PList, RNode, ["BACKTICKED_THINGS"; "NLAI"]))
  ; ("_ONELINE_PRODUCTION", (PCat, RUp, ["NLAI"; "ONELINE_PRODUCTION"]))
  ; ("ONELINE_PRODUCTION", (PCat, RNode, ["GNT"; " "; "COLONS"; " "; "ONELINE_R"]))
  ; ("ONELINE_R", (PAlt, RUp, ["ONELINE_ONE_OF"; "RHS_BODY"]))
  ; ("ONELINE_ONE_OF", (PCat, RNode, ["one of "; "BACKTICKED_THINGS"]))
  ; ("BACKTICKED_THINGS", (PList, RNode, ["BACKTICKED_THING"; " "]))
  ; ("MULTILINE_RHSS", (PList, RNode, ["RHS_LINE"; ""; "INDENT"; "OUTDENT"]))
  ; ("RHS_LINE", (PCat, RNode, ["NLAI"; "OPTIONAL_GUARD"; "RHS_BODY"; "OPTIONAL_LABEL"]))
  ; ("OPTIONAL_GUARD", (POpt, RUp, ["PARAMS"; " "]))
  ; ("OPTIONAL_LABEL", (POpt, RUp, [" "; "LABEL"]))
  ; ("RHS_BODY", (PAlt, RUp, ["U_RANGE"; "U_PROP"; "U_ANY"; "EMPTY"; "RHS_ITEMS"]))
  ; ("RHS_ITEMS", (PList, RNode, ["RHS_ITEM"; " "]))
  ; ("RHS_ITEM", (PAlt, RUp, ["RHS_SYMBOL_QM"; "RHS_SYMBOL"; "RHS_CONSTRAINT"]))
  ; ("RHS_SYMBOL_QM", (PCat, RNode, ["RHS_SYMBOL"; "\?"]))
  ; ("RHS_SYMBOL", (PAlt, RUp, ["GNT"; "BACKTICKED_THING"; "NAMED_CHAR"]))
  ; ("GNT", (PCat, RNode, ["NT"; "OPTIONAL_PARAMS"]))
  ; ("OPTIONAL_PARAMS", (POpt, RUp, ["PARAMS"]))
  ; ("PARAMS", (PList, RNode, ["PARAM"; ", "; "\["; "\]"]))
  ; ("RHS_CONSTRAINT", (PAlt, RUp, ["LOOKAHEAD_CONSTRAINT"; "NLTH"; "BUT_ONLY"; "BUT_NOT"]))
  ; ("LOOKAHEAD_CONSTRAINT", (PAlt, RUp, ["LAC_SINGLE"; "LAC_SET"]))
  ; ("LAC_SINGLE", (PCat, RNode, ["\[lookahead "; "LAC_SINGLE_OP"; " "; "TERMINAL_SEQ"; "\]"]))
  ; ("LAC_SINGLE_OP", (PRe, RNode, ["==|!="]))
  ; ("LAC_SET", (PCat, RNode, ["\[lookahead "; "LAC_SET_OP"; " "; "LAC_SET_OPERAND"; "\]"]))
  ; ("LAC_SET_OP", (PRe, RNode, ["&isin;|&notin;"]))
  ; ("LAC_SET_OPERAND", (PAlt, RUp, ["NT"; "SET_OF_TERMINAL_SEQ"]))
  ; ("SET_OF_TERMINAL_SEQ", (PList, RNode, ["TERMINAL_SEQ"; ", "; "{ "; " }"]))
  ; ("TERMINAL_SEQ", (PList, RNode, ["TERMINAL_ITEM"; " "]))
  ; ("TERMINAL_ITEM", (PAlt, RUp, ["BACKTICKED_THING"; "NAMED_CHAR"; "NLTH"]))
  ; ("BUT_ONLY", (PRe, RNode, ["\[> but only if ([^][]+)\]"]))
  ; ("BUT_NOT", (PCat, RNode, ["but not "; "EXCLUSION"]))
  ; ("EXCLUSION", (PAlt, RUp, ["EXCLUDABLES"; "EXCLUDABLE"]))
  ; ("EXCLUDABLES", (PList, RNode, ["EXCLUDABLE"; " or | "; "one of "; ""]))
  ; ("EXCLUDABLE", (PAlt, RUp, ["NT"; "BACKTICKED_THING"]))
  ; ("INDENT", (PRe, RNone, [""]))
  ; ("OUTDENT", (PRe, RNone, [""]))
  ; ("EOI", (PRe, RNone, [""]))
  ; ("NLAI", (PRe, RNone, ["\n +"]))
  ; ("COLONS", (PRe, RNode, [":+"]))
  ; ("PARAM", (PRe, RNode, ["([~+?]?)([A-Z][a-zA-Z]*)"]))
  ; ("NT", (PRe, RNode, ["[A-Z]\w*|uri\w*|@"]))
  ; ("LABEL", (PRe, RNode, ["#\w+"]))
  ; ("EMPTY", (PRe, RNode, ["\[empty\]"]))
  ; ("NLTH", (PRe, RNode, ["\[no LineTerminator here\]"]))
  ; ("U_RANGE", (PRe, RNode, ["&gt; any Unicode code point in the inclusive interval from U\+([0-9A-F]+) to U\+([0-9A-F]+)"]))
  ; ("U_PROP", (PRe, RNode, ["&gt; any Unicode code point with the Unicode property &ldquo;(\w+)&rdquo;"]))
  ; ("U_ANY", (PRe, RNode, ["&gt; any Unicode code point"]))
  ; ("BACKTICKED_THING", (PRe, RNode, ["`([^` ]+|`)`"]))
  ; ("NAMED_CHAR", (PRe, RNode, ["&lt;([A-Z]+)&gt;"]))
  ]%string.

(* ---------------------------------------------------------------------------------------------- *)
(* parse_emu_grammar, emu_grammars.py:81-264                                                        *)

(* shared.py:79-81 *)
Definition g_text (t : text) (n : gnode) : text := slice (g_start n) (g_end n) t.

Definition kind_is (n : gnode) (k : string) : bool := String.eqb (g_kind n) k.
Definition kind_in (n : gnode) (ks : list string) : bool := existsb (String.eqb (g_kind n)) ks.

(* [a, b] = node.children *)
Definition two {A} (l : list A) : res (A * A) := match l with [a; b] => Ok (a, b) | _ => Err ValueError end.
Definition one {A} (l : list A) : res A := match l with [a] => Ok a | _ => Err ValueError end.
Definition three {A} (l : list A) : res (A * A * A) := match l with [a; b; c] => Ok (a, b, c) | _ => Err ValueError end.

(* emu_grammars.py:266-286 with shared.py:85-95.  Only the failures are kept; the attributes set here
   are read by the functions below where they are needed. *)
Fixpoint decorate (n : gnode) : res unit :=
  let '(GNode kind _ _ groups children) := n in
  let all := (fix all (l : list gnode) : res unit :=
                match l with [] => Ok tt | c :: l' => do _ <- decorate c ;; all l' end) in
  if String.eqb kind "GNT" then do _ <- two children ;; Ok tt
  else if String.eqb kind "BUT_NOT" then
    do ex <- one children ;;
    do _ <- (if kind_is ex "EXCLUDABLES" then assert_ (1 <? length (g_children ex)) else Ok tt) ;;
    all children
  else if String.eqb kind "BACKTICKED_THING" then match groups with [] => Err IndexError | _ :: _ => Ok tt end
  else all children.

(* emu_grammars.py:288-297 with shared.py:85-95: the messages *)
Inductive pmsg := PrefixOnLHS (n : gnode) | NoPrefixOnRHS (n : gnode).

Fixpoint check_param_prefix (t : text) (must : bool) (n : gnode) : list pmsg :=
  let '(GNode kind _ _ _ children) := n in
  if String.eqb kind "OPTIONAL_PREFIX" then
    match g_text t n with
    | [] => if must then [NoPrefixOnRHS n] else []
    | _ :: _ => if must then [] else [PrefixOnLHS n]
    end
  else flat_map (check_param_prefix t must) children.

(* emu_grammars.py:222-264: a piece of the reduced form, for an item *)
Definition reduce_item (t : text) (n : gnode) : res (option text) :=
  if kind_in n ["BACKTICKED_THING"; "NAMED_CHAR"; "U_ANY"; "U_PROP"; "U_RANGE"] then Ok (Some (g_text t n))
  else if kind_is n "GNT" then do (nt, _) <- two (g_children n) ;; Ok (Some (g_text t nt))
  else if kind_is n "RHS_SYMBOL_QM" then
    do sym <- one (g_children n) ;;
    if kind_in sym ["BACKTICKED_THING"; "NAMED_CHAR"] then Ok (Some (g_text t sym ++ tx "?"))
    else if kind_is sym "GNT" then do (nt, _) <- two (g_children sym) ;; Ok (Some (g_text t nt ++ tx "?"))
    else Err AssertionError
  else if kind_in n ["BUT_ONLY"; "BUT_NOT"; "LABEL"; "LAC_SET"; "LAC_SINGLE"; "NLTH"; "PARAMS"] then Ok None
  else Err AssertionError.

Fixpoint mapM {A B} (f : A -> res B) (l : list A) : res (list B) :=
  match l with [] => Ok [] | a :: l' => do b <- f a ;; do bs <- mapM f l' ;; Ok (b :: bs) end.

(* ' '.join(pieces) *)
Fixpoint joined (sep : text) (l : list text) : text :=
  match l with [] => [] | [a] => a | a :: l' => a ++ sep ++ joined sep l' end.

(* emu_grammars.py:222-264 *)
Definition reduce_rhs (t : text) (items : list gnode) : res text :=
  do pieces <- mapM (reduce_item t) items ;;
  Ok (joined (tx " ") (flat_map opt_list pieces)).

(* what is set on a production node, emu_grammars.py:125-218: _lhs_symbol, _param_names, _num_colons,
   and of the elements of _rhss the attributes _rhs_items and _reduced *)
Record dprod := { dp_node : gnode; dp_lhs : text; dp_params : list text; dp_colons : nat; dp_rhss : list (gnode * list gnode * text) }.

(* emu_grammars.py:156-176 *)
Definition rhs_line_items (t : text) (line : gnode) : res (gnode * list gnode) :=
  do _ <- assert_ (kind_is line "RHS_LINE") ;;
  do (guard, body, label) <- three (g_children line) ;;
  do items <-
    (if kind_is body "EMPTY" then Ok []
     else if kind_in body ["U_RANGE"; "U_PROP"; "U_ANY"] then Ok [body]
     else if kind_is body "RHS_ITEMS" then Ok (g_children body)
     else Err AssertionError) ;;
  Ok (line, (match g_text t guard with [] => [] | _ => [guard] end) ++ items
            ++ (match g_text t label with [] => [] | _ => [label] end)).

(* emu_grammars.py:151-213 *)
Definition rhss_of (t : text) (prod r : gnode) : res (list (gnode * list gnode)) :=
  if kind_is prod "MULTILINE_PRODUCTION" then
    if kind_is r "MULTILINE_RHSS" then mapM (rhs_line_items t) (g_children r)
    else if kind_is r "MULTILINE_ONE_OF" then
      do lines <- one (g_children r) ;;
      do _ <- assert_ (kind_is lines "LINES_OF_BACKTICKED_THINGS") ;;
      do ls <- mapM (fun l => do _ <- assert_ (kind_is l "BACKTICKED_THINGS") ;; Ok (map (fun b => (b, [b])) (g_children l))) (g_children lines) ;;
      Ok (List.concat ls)
    else Err AssertionError
  else if kind_is prod "ONELINE_PRODUCTION" then
    if kind_is r "EMPTY" then Ok [(r, [])]
    else if kind_is r "RHS_ITEMS" then Ok [(r, g_children r)]
    else if kind_is r "ONELINE_ONE_OF" then
      do things <- one (g_children r) ;;
      Ok (map (fun b => (b, [b])) (g_children things))
    else Err AssertionError
  else Err AssertionError.

(* emu_grammars.py:123-218, for a production *)
Definition do_production (t : text) (prod : gnode) : res (dprod * list pmsg) :=
  do (gnt, colons, r) <- three (g_children prod) ;;
  do (nt, params) <- two (g_children gnt) ;;
  do _ <- assert_ (kind_in params ["OMITTED_OPTIONAL"; "PARAMS"]) ;;
  let msgs := check_param_prefix t false params ++ check_param_prefix t true r in
  do names <- mapM (fun p => match nth_error (g_groups p) 1 with Some n => Ok n | None => Err IndexError end) (g_children params) ;;
  do rhss <- rhss_of t prod r ;;
  do rhss' <- mapM (fun x => do red <- reduce_rhs t (snd x) ;; Ok (fst x, snd x, red)) rhss ;;
  Ok ({| dp_node := prod; dp_lhs := g_text t nt; dp_params := names; dp_colons := length (g_text t colons); dp_rhss := rhss' |}, msgs).

(* rfind('\n', 0, posn) + 1 *)
Fixpoint line_start_from (i : nat) (best : nat) (s : text) : nat :=
  match s with [] => best | c :: s' => line_start_from (S i) (if (c =? 10)%N then S i else best) s' end.
Definition line_start (t : text) (posn : nat) : nat := line_start_from 0 0 (firstn posn t).

(* emu_grammars.py:81-220.  The element is given by its four positions.  The left result is a message
   about a syntax error (and the function returns False); the right one is the productions and the
   other messages (and it returns True). *)
Definition parse_emu_grammar (t : text) (start_posn inner_start inner_end end_posn : nat)
  : res ((nat * list expectation) + (list dprod * list pmsg)) :=
  do (goal, indent) <-
    (if existsb (N.eqb 10) (slice start_posn end_posn t)
     then let i := start_posn - line_start t start_posn in
          do _ <- assert_ (existsb (Nat.eqb i) [2; 4; 6; 8; 10]) ;;
          Ok ("EMU_GRAMMAR_CONTENT_2"%string, Some (Z.of_nat i))
     else Ok ("EMU_GRAMMAR_CONTENT_1"%string, None)) ;;
  do r <- simple_parse metagrammar t goal inner_start inner_end indent ;;
  match r with
  | inr m => Ok (inl m)
  | inl None => Ok (inl (inner_start, []))                                    (* gnode is None: not reached *)
  | inl (Some node) =>
      do _ <- decorate node ;;
      do prods <-
        (if kind_is node "BLOCK_PRODUCTIONS" then Ok (g_children node)
         else if kind_is node "ONELINE_PRODUCTION" then Ok [node]
         else Err AssertionError) ;;
      do ds <- mapM (do_production t) prods ;;
      Ok (inr (map fst ds, flat_map snd ds))
  end.
End Meta.
