(* Model of references to the symbols of a production in syntax-directed operations (pseudocode_semantics.py): the focus map of a frame, its
   lookup at run time, the static check of such references; and of the conditions and expressions that ask for parts of a parse node. *)
From Coq Require Import Ascii String.
From Verif Require Import M_Base M_Dict M_HTML M_PNode.
Open Scope list_scope.
Notation length := List.length.
Notation concat := List.concat.

(* an ES_ParseNode or the ES_AbsentParseNode() (pseudocode_semantics.py:4200) *)
Inductive ref := Node (n : pnode) | Absent.
(* the dictionary focus_map; the key None stands for all terminals (their T_lit etc. is never looked up) *)
Notation focus_map := (list (option text * list ref)).
Definition key_eqb (a b : option text) : bool :=
  match a, b with Some x, Some y => text_eqb x y | None, None => true | _, _ => false end.
Fixpoint fget (m : focus_map) (k : option text) : option (list ref) :=
  match m with [] => None | (k', v) :: m' => if key_eqb k' k then Some v else fget m' k end.
(* focus_map[ref_name].append(ref_node), on a defaultdict(list) *)
Fixpoint fappend (m : focus_map) (k : option text) (r : ref) : focus_map :=
  match m with
  | [] => [(k, [r])]
  | (k', v) :: m' => if key_eqb k' k then (k', v ++ [r]) :: m' else (k', v) :: fappend m' k r
  end.

(* pseudocode_semantics.py:2969-2978  the name and the node for one of [focus_node] + focus_node.children; symbol[:-1] is removelast *)
Definition ref_of (c : pnode) : res (option text * ref) :=
  match sym c with
  | Some s =>
    if ends_q s then
      match kids c with
      | [] => Ok (Some (removelast s), Absent)
      | ch => do _ <- assert_ (length ch =? 1) ;; match ch with [d] => Ok (Some (removelast s), Node d) | _ => Err ValueError end
      end
    else Ok (Some s, Node c)
  | None => Ok (None, Node c)
  end.
(* pseudocode_semantics.py:2966-2980  _make_focus_map *)
Fixpoint add_refs (m : focus_map) (cs : list pnode) : res focus_map :=
  match cs with
  | [] => Ok m
  | c :: cs' => do (k, r) <- ref_of c ;; add_refs (fappend m k r) cs'
  end.
Definition make_focus_map (n : pnode) : res focus_map := add_refs [] (n :: kids n).

(* pseudocode_semantics.py:2982-2992  augment_focus_map *)
Definition is_node (i : nat) (r : ref) : bool := match r with Node n => pid n =? i | Absent => false end.
Fixpoint augment_with (m : focus_map) (cs : list pnode) : res focus_map :=
  match cs with
  | [] => Ok m
  | c :: cs' =>
    match sym c with
    | None => Err AssertionError
    | Some s =>
      do _ <- assert_ (negb (ends_q s)) ;;
      do _ <- assert_ (match fget m (Some s) with None => true | Some _ => false end) ;;
      augment_with (fappend m (Some s) (Node c)) cs'
    end
  end.
Definition augment (m : focus_map) (n : pnode) : res focus_map :=
  do _ <- assert_ (match fget m (sym n) with Some rs => existsb (is_node (pid n)) rs | None => false end) ;;
  augment_with m (kids n).
(* pseudocode_semantics.py:4573-4593  "{LOCAL_REF} is {h_emu_grammar}" in a frame with a focus map *)
Definition is_production (m : focus_map) (n : pnode) (puk_set : list puk) : res (bool * focus_map) :=
  do k <- puk_of n ;;
  let result := existsb (puk_eqb k) puk_set in
  do m' <- augment m n ;;
  Ok (result, m').

(* the argument `ordinal`: None, 'derived' or a number *)
Inductive ordinal := NoOrdinal | Derived | Nth (k : nat).
(* pseudocode_semantics.py:3182-3185 *)
Definition lhs_puks : list puk := [
  (tx "IdentifierName", tx "IdentifierName IdentifierPart", []);
  (tx "UnaryExpression", tx "`delete` UnaryExpression", []) ].
(* pseudocode_semantics.py:3188-3210 *)
Definition rhs_puks : list puk := [
  (tx "BindingPropertyList", tx "BindingPropertyList `,` BindingProperty", []);
  (tx "ClassElementList", tx "ClassElementList ClassElement", []);
  (tx "FormalParameterList", tx "FormalParameterList `,` FormalParameter", []);
  (tx "StatementList", tx "StatementList StatementListItem", []);
  (tx "DoubleStringCharacters", tx "DoubleStringCharacter DoubleStringCharacters?", [1]);
  (tx "ImportsList", tx "ImportsList `,` ImportSpecifier", []);
  (tx "ModuleItemList", tx "ModuleItemList ModuleItem", []);
  (tx "BindingList", tx "BindingList `,` LexicalBinding", []);
  (tx "BindingElementList", tx "BindingElementList `,` BindingElisionElement", []);
  (tx "MemberExpression", tx "MemberExpression `.` IdentifierName", []);
  (tx "ExportsList", tx "ExportsList `,` ExportSpecifier", []);
  (tx "HexDigits", tx "HexDigits HexDigit", []);
  (tx "CaseClauses", tx "CaseClauses CaseClause", []);
  (tx "VariableDeclarationList", tx "VariableDeclarationList `,` VariableDeclaration", []);
  (tx "CallExpression", tx "CallExpression `.` IdentifierName", []);
  (tx "TemplateCharacters", tx "TemplateCharacter TemplateCharacters?", [1]);
  (tx "SingleStringCharacters", tx "SingleStringCharacter SingleStringCharacters?", [1]);
  (tx "TemplateMiddleList", tx "TemplateMiddleList TemplateMiddle Expression", []);
  (tx "PropertyDefinitionList", tx "PropertyDefinitionList `,` PropertyDefinition", []);
  (tx "DecimalDigits", tx "DecimalDigits DecimalDigit", []);
  (tx "LegacyOctalIntegerLiteral", tx "LegacyOctalIntegerLiteral OctalDigit", []) ].
Definition nth_ref (rs : list ref) (k : nat) : res ref := match nth_error rs k with Some r => Ok r | None => Err IndexError end.
(* pseudocode_semantics.py:3125-3231  resolve_focus_reference; the species of the algorithm is not modelled (the frame has a focus node) *)
Definition resolve (focus : pnode) (m : focus_map) (o : ordinal) (name : text) : res ref :=
  match fget m (Some name) with
  | None => Ok Absent
  | Some rs =>
    let nr := length rs in
    do r <-
      (if nr =? 0 then Err AssertionError
       else if nr =? 1 then
         do _ <- assert_ (match o with NoOrdinal => true | _ => false end) ;; nth_ref rs 0
       else if match sym focus with Some s => text_eqb name s | None => false end then
         match o with
         | Derived => do _ <- assert_ (nr =? 2) ;; nth_ref rs 1
         | NoOrdinal =>
           do _ <- assert_ (nr =? 2) ;;
           do k <- puk_of focus ;;
           if existsb (puk_eqb k) lhs_puks then nth_ref rs 0
           else if existsb (puk_eqb k) rhs_puks then nth_ref rs 1
           else Err AssertionError
         | Nth _ => Err AssertionError
         end
       else
         match o with
         | NoOrdinal => Err AssertionError
         | Derived => Err TypeError (* 1 <= 'derived' *)
         | Nth k => do _ <- assert_ ((1 <=? k) && (k <=? nr)) ;; nth_ref rs (k - 1)
         end) ;;
    match r with
    | Node n => do _ <- assert_ (match sym n with Some s => text_eqb s name | None => false end) ;; Ok r
    | Absent => Ok Absent
    end
  end.

(* ---- the references as written, and their static check ---- *)

(* pseudocode_semantics.py:6237-6328  "this X", "X" or "the X", "the derived X", "the first (second, third, fourth) X" *)
Inductive prefix := This | Plain | TheDerived | TheNth (k : nat).
(* their d_exec *)
Definition exec_ref (focus : pnode) (m : focus_map) (p : prefix) (name : text) : res ref :=
  match p with
  | This => do _ <- assert_ (match sym focus with Some s => text_eqb s name | None => false end) ;; Ok (Node focus)
  | Plain => resolve focus m NoOrdinal name
  | TheDerived => resolve focus m Derived name
  | TheNth k => resolve focus m (Nth k) name
  end.
(* an item of a right-hand side: X, X? for a nonterminal X, anything else *)
Inductive ritem := GNT (x : text) | QM (x : text) | Other.
Notation productions := (list (text * list (list ritem))).
Definition names (name : text) (i : ritem) : bool := match i with GNT x => text_eqb x name | QM x => text_eqb x name | Other => false end.
Definition is_qm (i : ritem) : bool := match i with QM _ => true | _ => false end.
(* an "is ambiguous" error: production and rhs numbers (None: "the associated production"), number of occurrences *)
Notation ambiguity := (option (nat * nat) * nat)%type.
(* pseudocode_semantics.py:6351-6432  what is done for one rhs: is T_not_in_node added, errors *)
Definition check_rhs (p : prefix) (name lhs : text) (locator : option (nat * nat)) (rhs : list ritem) : res (bool * list ambiguity) :=
  let lhs_count := if text_eqb lhs name then 1 else 0 in
  let named := filter (names name) rhs in
  let rhs_count := length named in
  do (extra, errs, to_check) <-
    match p with
    | This => do _ <- assert_ (lhs_count =? 1) ;; Ok (false, [], [])
    | Plain =>
      let total := lhs_count + rhs_count in
      Ok (total =? 0, (if (total =? 0) || (total =? 1) then [] else [(locator, total)]), named)
    | TheDerived => do _ <- assert_ (lhs_count =? 1) ;; do _ <- assert_ (rhs_count =? 1) ;; Ok (false, [], named)
    | TheNth k =>
      do _ <- assert_ (lhs_count =? 0) ;;
      do _ <- assert_ (k <=? rhs_count) ;;
      match k with
      | 0 => Err AssertionError (* 'zeroth' is not an ordinal that can be written: KeyError in the dictionary of ordinals *)
      | S j => match nth_error named j with Some i => Ok (false, [], [i]) | None => Err IndexError end
      end
    end ;;
  Ok (extra || existsb is_qm to_check, errs).
Fixpoint check_rhss (p : prefix) (name lhs : text) (single : bool) (pi ri : nat) (rhss : list (list ritem)) : res (bool * list ambiguity) :=
  match rhss with
  | [] => Ok (false, [])
  | rhs :: rhss' =>
    do (b, es) <- check_rhs p name lhs (if single then None else Some (pi, ri)) rhs ;;
    do (b', es') <- check_rhss p name lhs single pi (S ri) rhss' ;;
    Ok (b || b', es ++ es')
  end.
Fixpoint check_prods (p : prefix) (name : text) (single : bool) (pi : nat) (ps : productions) : res (bool * list ambiguity) :=
  match ps with
  | [] => Ok (false, [])
  | (lhs, rhss) :: ps' =>
    do (b, es) <- check_rhss p name lhs single pi 1 rhss ;;
    do (b', es') <- check_prods p name single (S pi) ps' ;;
    Ok (b || b', es ++ es')
  end.
(* pseudocode_semantics.py:6338-6434  s_resolve_focus_reference: is T_not_in_node in the type returned (next to the type of the nonterminal), and
   the errors reported *)
Definition s_resolve (p : prefix) (name : text) (ps : productions) : res (bool * list ambiguity) :=
  check_prods p name (length (flat_map snd ps) =? 1) 1 ps.

(* ---- parts of a node ---- *)

(* es_parser.py:2103-2106  preorder_traverse *)
Fixpoint preorder_traverse (n : pnode) : list pnode := let 'PN _ _ _ _ _ _ ch := n in n :: flat_map preorder_traverse ch.
(* pseudocode_semantics.py:4715-4728  "the {nonterminal} of {LOCAL_REF}" *)
Definition child_named (n : pnode) (name : text) : res pnode :=
  let sel := filter (fun c => match sym c with Some s => text_eqb s name | None => false end) (kids n) in
  do _ <- assert_ (length sel =? 1) ;;
  match sel with [c] => Ok c | _ => Err ValueError end.
(* pseudocode_semantics.py:4735-4754  the four conditions *)
Inductive containing := ContainsA | ContainsAnNode | DoesNotContainA | DoesNotContainTwo.
Definition containing_cond (c : containing) (n : pnode) (name : text) : bool :=
  let contains_it := contains_a n name in
  match c with
  | DoesNotContainA | DoesNotContainTwo => negb contains_it
  | ContainsA | ContainsAnNode => contains_it
  end.
(* pseudocode_semantics.py:4798-4806  "the number of {h_emu_grammar} Parse Nodes contained within {var}" *)
Definition number_within (n : pnode) (puk_set : list puk) : nat :=
  fold_left (fun count d => if match puk_of d with Ok k => existsb (puk_eqb k) puk_set | Err _ => false end then S count else count) (preorder_traverse n) 0.
(* pseudocode_semantics.py:4828-4838  "{EX} contains two distinct {nonterminal}s ... such that ..."; descendants: a set of nodes (told apart by id) *)
Definition contains_two_distinct (n : pnode) (name : text) : res bool :=
  let descendants := nodup Nat.eq_dec (map pid (filter (fun d => match sym d with Some s => text_eqb s name | None => false end) (preorder_traverse n))) in
  if length descendants <? 2 then Ok false else Err AssertionError.
(* pseudocode_semantics.py:4850-4860  "the {nonterminal} containing {LOCAL_REF}" *)
Definition the_containing (fuel : nat) (symbol : nat -> option text) (ps : parents) (i : nat) (name : text) : res nat :=
  do anc <- each_ancestor fuel ps i ;;
  let containers := filter (fun a => match symbol a with Some s => text_eqb s name | None => false end) anc in
  do _ <- assert_ (length containers =? 1) ;;
  match containers with c :: _ => Ok c | [] => Err IndexError end.
