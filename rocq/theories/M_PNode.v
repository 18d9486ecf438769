(* Model of ES_ParseNode (es_parser.py), and of what is done with parse trees in pseudocode_semantics.py: choosing the definition of a
   syntax-directed operation, looking for early errors, ancestors, covered nodes. *)
From Coq Require Import Ascii String.
From Verif Require Import M_Base M_Dict M_HTML.
Open Scope list_scope.

(* the fields of an ES_ParseNode, which objects are told apart by id. symbol: None for a terminal (T_lit etc., which is never equal to a name);
   rhs: production.og_rhs_reduced; bits: option_bits *)
Inductive pnode := PN (id : nat) (symbol : option text) (rhs : text) (bits : list nat) (start_posn end_posn : nat) (children : list pnode).
Definition pid (n : pnode) : nat := let 'PN i _ _ _ _ _ _ := n in i.
Definition sym (n : pnode) : option text := let 'PN _ s _ _ _ _ _ := n in s.
Definition start_posn (n : pnode) : nat := let 'PN _ _ _ _ a _ _ := n in a.
Definition end_posn (n : pnode) : nat := let 'PN _ _ _ _ _ b _ := n in b.
Definition kids (n : pnode) : list pnode := let 'PN _ _ _ _ _ _ ch := n in ch.
Definition is_terminal (n : pnode) : bool := match sym n with None => true | Some _ => false end.
(* es_parser.py:2058-2059  text *)
Definition node_text (whole_text : text) (n : pnode) : text := slice (start_posn n) (end_posn n) whole_text.
(* child.symbol.endswith('?') *)
Definition ends_q (s : text) : bool := match rev s with c :: _ => (c =? 63)%N | [] => false end.
(* es_parser.py:1980  puk (a terminal has no such attribute) *)
Notation puk := (text * text * list nat)%type.
Definition puk_of (n : pnode) : res puk := let 'PN _ s r b _ _ _ := n in match s with Some s => Ok (s, r, b) | None => Err AttributeError end.
(* es_parser.py:2038-2046  nt_children *)
Fixpoint nt_children (ch : list pnode) : res (list pnode) :=
  match ch with
  | [] => Ok []
  | c :: ch' =>
    do l <- match sym c with
            | None => Ok []
            | Some s =>
              if ends_q s then match kids c with [] => Ok [] | [x] => Ok [x] | _ => Err ValueError end
              else Ok [c]
            end ;;
    do l' <- nt_children ch' ;;
    Ok (l ++ l')
  end.
(* es_parser.py:636-647  the node for a reduced item, at a set at text position posn; 1944-2051  ES_ParseNode.__init__ (nonterminal).
   A bit is str(len(child.children)) and is kept as a number (the code would also let 10 and 11 pass as two bits each). *)
Definition option_bits (ch : list pnode) : list nat :=
  flat_map (fun c => match sym c with Some s => if ends_q s then [List.length (kids c)] else [] | None => [] end) ch.
Definition new_node (len : nat) (id : nat) (symbol rhs : text) (ch : list pnode) (posn : nat) : res pnode :=
  let bits := option_bits ch in
  do _ <- assert_ (forallb (fun b => b <=? 1) bits) ;;
  let (a, b) := match ch with [] => (posn, posn) | c :: _ => (start_posn c, end_posn (last ch c)) end in
  do _ <- assert_ ((a <=? b) && (b <=? len)) ;;
  do _ <- nt_children ch ;;
  Ok (PN id (Some symbol) rhs bits a b ch).
(* the same, terminal *)
Definition new_terminal (len : nat) (id : nat) (a b : nat) : res pnode :=
  do _ <- assert_ ((a <=? b) && (b <=? len)) ;;
  Ok (PN id None [] [] a b []).
(* es_parser.py:2047-2051  is_instance_of_chain_prod and direct_chain *)
Definition direct_chain (n : pnode) : option pnode := match nt_children (kids n) with Ok [c] => Some c | _ => None end.

(* ---- syntax-directed operations ---- *)

Inductive sdo_style := early_errors_style | default_style | chain_style.
(* pseudocode_semantics.py:6553, 6556 *)
Definition style_of (name : text) : sdo_style :=
  if text_eqb name (tx "Early Errors") then early_errors_style
  else if existsb (text_eqb name) [tx "Contains"; tx "AllPrivateIdentifiersValid"; tx "ContainsArguments"] then default_style
  else chain_style.
Definition bits_eqb (a b : list nat) : bool := if list_eq_dec Nat.eq_dec a b then true else false.
Definition puk_eqb (a b : puk) : bool := let '(s, r, b1) := a in let '(s', r', b2) := b in text_eqb s s' && text_eqb r r' && bits_eqb b1 b2.
(* spec.sdo_coverage_map[sdo_name]: from puk to definitions, which are numbered *)
Notation sdo_map := (list (puk * list nat)).
Fixpoint pget (m : sdo_map) (k : puk) : option (list nat) :=
  match m with [] => None | (k', v) :: m' => if puk_eqb k' k then Some v else pget m' k end.
Definition default_puk : puk := (tx "*default*", [], []).
(* what comes out of it: the definition to execute and its focus node, or at once a value *)
Inductive chosen := Run (defn : nat) (focus : pnode) | EmptyString_ | EmptyList | FalseV.
(* s.startswith(p) *)
Fixpoint starts_with (p s : text) : bool :=
  match p, s with [], _ => true | c :: p', d :: s' => (c =? d)%N && starts_with p' s' | _, _ => false end.
(* pseudocode_semantics.py:6579-6603  when there is no definition and the chain rule doesn't apply *)
Definition undefined (name : text) (k : puk) : res chosen :=
  if text_eqb name (tx "PropName") && puk_eqb k (tx "CoverInitializedName", tx "IdentifierReference Initializer", []) then Ok EmptyString_
  else if text_eqb name (tx "SV") then Ok EmptyString_
  else if text_eqb name (tx "VarDeclaredNames") then Ok EmptyList
  else if starts_with (tx "Contains") name then Ok FalseV
  else Err AssertionError.
(* pseudocode_semantics.py:6605-6609 *)
Definition the_defn (m : sdo_map) (k : puk) (n : pnode) : res chosen :=
  match pget m k with
  | None => Err KeyError
  | Some ds => match ds with [d] => Ok (Run d n) | _ => Err AssertionError end
  end.
(* pseudocode_semantics.py:6567-6603  the loop of the chain rule *)
Fixpoint chain (fuel : nat) (m : sdo_map) (name : text) (n : pnode) : res chosen :=
  match fuel with
  | 0 => Err OutOfFuel
  | S f =>
    do k <- puk_of n ;;
    match pget m k with
    | Some _ => the_defn m k n
    | None =>
      match direct_chain n with
      | Some c => chain f m name c
      | None => undefined name k
      end
    end
  end.
(* pseudocode_semantics.py:6528-6609  execute_sdo_invocation, once the focus and arguments are evaluated, up to execute_alg_defn *)
Definition choose (fuel : nat) (cover : list (text * sdo_map)) (name : text) (n : pnode) : res chosen :=
  match find (fun e => text_eqb (fst e) name) cover with
  | None => Err KeyError
  | Some (_, m) =>
    match style_of name with
    | early_errors_style => Err AssertionError
    | default_style =>
      do k <- puk_of n ;;
      match pget m k with Some _ => the_defn m k n | None => the_defn m default_puk n end
    | chain_style => chain fuel m name n
    end
  end.

(* ---- early errors ---- *)

Section Traverse.
  (* the state; the covered_thing attribute of a node, if it has one; executing a rule on a node *)
  Variable S_ : Type.
  Variable covered : S_ -> nat -> option (option pnode).
  Variable exec : nat -> pnode -> S_ -> res S_.
  (* ee_map *)
  Variable rules : sdo_map.
  Definition rules_for (n : pnode) : list nat := match puk_of n with Ok k => match pget rules k with Some rs => rs | None => [] end | Err _ => [] end.
  Fixpoint apply_rules (rs : list nat) (n : pnode) (s : S_) : res S_ :=
    match rs with [] => Ok s | r :: rs' => do s' <- exec r n s ;; apply_rules rs' n s' end.
  (* pseudocode_semantics.py:2851-2875  traverse_for_early_errors. It returns the state and, for the statement of properties only,
     the nodes whose rules it has applied, in this order. *)
  Fixpoint traverse (fuel : nat) (n : pnode) (s : S_) : res (S_ * list pnode) :=
    match fuel with
    | 0 => Err OutOfFuel
    | S f =>
      if is_terminal n then Ok (s, [])
      else match covered s (pid n) with
           | Some (Some c) => traverse f c s
           | Some None => Ok (s, [])
           | None =>
             do s1 <- apply_rules (rules_for n) n s ;;
             do r <- (fix each (ch : list pnode) (s : S_) : res (S_ * list pnode) :=
                        match ch with
                        | [] => Ok (s, [])
                        | c :: ch' => do a <- traverse f c s ;; do b <- each ch' (fst a) ;; Ok (fst b, snd a ++ snd b)
                        end) (kids n) s1 ;;
             Ok (fst r, n :: snd r)
           end
    end.
End Traverse.

(* ds.agent.early_errors and ds.agent.saved_early_errors, if they are there *)
Record agent := mkAgent { early_errors : option (list nat); saved_early_errors : option (list nat) }.
(* pseudocode_semantics.py:6970-6974  an error is appended *)
Definition add_error (e : nat) (a : agent) : res agent :=
  match early_errors a with Some l => Ok (mkAgent (Some (l ++ [e])) (saved_early_errors a)) | None => Err AttributeError end.
(* pseudocode_semantics.py:2815-2849  get_early_errors_in; [body] is traverse_for_early_errors(pnode): the agent it leaves, and the exception, if any *)
Definition get_early_errors_in (is_Pattern : bool) (body : agent -> agent * option exn) (a : agent) : agent * res (list nat) :=
  let enter := match early_errors a with
               | None => Ok a
               | Some l =>
                 do _ <- assert_ is_Pattern ;;
                 do _ <- assert_ (match saved_early_errors a with None => true | Some _ => false end) ;;
                 Ok (mkAgent (early_errors a) (Some l))
               end in
  match enter with
  | Err e => (a, Err e)
  | Ok a1 =>
    match body (mkAgent (Some []) (saved_early_errors a1)) with
    | (a2, Some e) => (a2, Err e)
    | (a2, None) =>
      match early_errors a2 with
      | None => (a2, Err AttributeError)
      | Some es =>
        (match saved_early_errors a2 with Some l => mkAgent (Some l) None | None => mkAgent None None end, Ok es)
      end
    end
  end.

(* ---- ancestors ---- *)

(* node.parent, for nodes that have this attribute *)
Notation parents := (list (nat * option nat)).
(* es_parser.py:1102-1110  add_parent_links *)
Fixpoint add_parent_links (n : pnode) (ps : parents) : parents :=
  let 'PN i _ _ _ _ _ ch := n in
  (fix each (ch : list pnode) (ps : parents) : parents :=
     match ch with
     | [] => ps
     | c :: ch' => each ch' (add_parent_links c (nset ps (pid c) (Some i)))
     end) ch ps.
(* es_parser.py:1096-1098  at the end of parse() *)
Definition link (n : pnode) (ps : parents) : parents := add_parent_links n (nset ps (pid n) None).
(* es_parser.py:2090-2094  each_ancestor, as a list *)
Fixpoint each_ancestor (fuel : nat) (ps : parents) (i : nat) : res (list nat) :=
  match fuel with
  | 0 => Err OutOfFuel
  | S f =>
    match nget ps i with
    | None => Err AttributeError
    | Some None => Ok []
    | Some (Some p) => do l <- each_ancestor f ps p ;; Ok (p :: l)
    end
  end.
(* es_parser.py:2096-2101  root *)
Fixpoint root (fuel : nat) (ps : parents) (i : nat) : res nat :=
  match fuel with
  | 0 => Err OutOfFuel
  | S f => match nget ps i with None => Err AttributeError | Some None => Ok i | Some (Some p) => root f ps p end
  end.
(* pseudocode_semantics.py:4930-4947 *)
Definition boundary_symbols : list text :=
  [tx "FunctionDeclaration"; tx "FunctionExpression"; tx "GeneratorDeclaration"; tx "GeneratorExpression"; tx "AsyncFunctionDeclaration";
   tx "AsyncFunctionExpression"; tx "AsyncGeneratorDeclaration"; tx "AsyncGeneratorExpression"; tx "MethodDefinition"; tx "ArrowFunction";
   tx "AsyncArrowFunction"; tx "ClassStaticBlock"].
(* anc.symbol in symbols *)
Definition sym_in (s : option text) (l : list text) : bool := match s with Some s => existsb (text_eqb s) l | None => false end.
(* pseudocode_semantics.py:4958-4962 *)
Fixpoint nested_in (symbol : nat -> option text) (targets : list text) (ancestors : list nat) : bool :=
  match ancestors with
  | [] => false
  | a :: l => if sym_in (symbol a) targets then true else if sym_in (symbol a) boundary_symbols then false else nested_in symbol targets l
  end.
(* pseudocode_semantics.py:4929-4962  node_is_nested_but_not_crossing_function_boundaries_within_a *)
Definition is_nested (fuel : nat) (symbol : nat -> option text) (ps : parents) (i : nat) (targets : list text) : res bool :=
  do _ <- assert_ (negb (existsb (fun t => existsb (text_eqb t) boundary_symbols) targets)) ;;
  do _ <- assert_ (negb (sym_in (symbol i) targets)) ;;
  do l <- each_ancestor fuel ps i ;;
  Ok (nested_in symbol targets l).

(* ---- covered nodes ---- *)

Section Covered.
  (* parse(pnode, nt_name + setting) at the given moment; Err UserError for a ParseError *)
  Variable reparse : pnode -> text -> res pnode.
  (* ''.join(pnode.production.og_params_setting) *)
  Variable setting : pnode -> text.
  (* pseudocode_semantics.py:5051-5066  the_nonterminal_that_is_covered_by_pnode; the state: covered_thing of nodes *)
  Definition the_covered (name : text) (n : pnode) (cov : list (nat * option pnode)) : res (option pnode * list (nat * option pnode)) :=
    match nget cov (pid n) with
    | Some c => Ok (c, cov)
    | None =>
      match reparse n (name ++ setting n) with
      | Ok c => do _ <- assert_ (match sym c with Some s => text_eqb s name | None => false end) ;; Ok (Some c, nset cov (pid n) (Some c))
      | Err UserError => Ok (None, nset cov (pid n) None)
      | Err e => Err e
      end
    end.
End Covered.

(* ---- unit derivation ---- *)

(* es_parser.py:2081-2088  unit_derives_a *)
Fixpoint unit_derives_a (n : pnode) (s : text) : option pnode :=
  let 'PN _ y _ _ _ _ ch := n in
  if match y with Some y => text_eqb y s | None => false end then Some n
  else match ch with [c] => unit_derives_a c s | _ => None end.
(* pseudocode_semantics.py:4611-4628  pnode_unit_derives_a_node_with_puk *)
Fixpoint unit_derives_puk (n : pnode) (ks : list puk) : option pnode :=
  let 'PN _ y r b _ _ ch := n in
  match y with
  | None => None
  | Some s => if existsb (puk_eqb (s, r, b)) ks then Some n else match ch with [c] => unit_derives_puk c ks | _ => None end
  end.
(* es_parser.py:2074-2079  contains_a *)
Fixpoint contains_a (n : pnode) (s : text) : bool :=
  let 'PN _ y _ _ _ _ ch := n in
  match y with Some y => text_eqb y s | None => false end || existsb (fun c => contains_a c s) ch.
