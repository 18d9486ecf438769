(* Model of how pieces of pseudocode are parsed, once each, and connected with the elements inside them, and of the checks that all have been
   (Pseudocode.py:141-310, Section.py:237-268).  The parser itself is a parameter. *)
From Coq Require Import Ascii String.
From Verif Require Import M_Base M_HTML M_Shared M_Steps.
Open Scope list_scope.
Open Scope nat_scope.
Notation length := List.length.

(* a node of the document: which one it is, its name, its inner text, whether it has an aoid, its section_kind if it is a section *)
Inductive hn := HN (h_id : nat) (h_name h_inner : text) (h_aoid : bool) (h_kind : option text) (h_kids : list hn).
Definition h_id (h : hn) := let 'HN i _ _ _ _ _ := h in i.
Definition h_name (h : hn) := let 'HN _ n _ _ _ _ := h in n.
Definition h_inner (h : hn) := let 'HN _ _ t _ _ _ := h in t.
Definition h_aoid (h : hn) := let 'HN _ _ _ a _ _ := h in a.
Definition h_kind (h : hn) := let 'HN _ _ _ _ k _ := h in k.
Definition h_kids (h : hn) := let 'HN _ _ _ _ _ c := h in c.
(* a node of a syntax tree: which one it is, the left side of its production, the children that are nodes *)
Inductive an := AN (a_id : nat) (a_lhs : text) (a_kids : list an).
Definition a_id (a : an) := let 'AN i _ _ := a in i.
Definition a_lhs (a : an) := let 'AN _ l _ := a in l.
Definition a_kids (a : an) := let 'AN _ _ c := a in c.

(* HTML.py:230-233  each_descendant *)
Fixpoint h_desc (h : hn) : list hn := match h with HN _ _ _ _ _ c => flat_map (fun d => d :: h_desc d) c end.
(* Pseudocode_Parser.py:562-566  each_descendant *)
Fixpoint a_desc (a : an) : list an := match a with AN _ _ c => flat_map (fun d => d :: a_desc d) c end.
(* HTML.py:235-245  each_descendant_named, each with its parent *)
Fixpoint h_named (x : text) (parent : option hn) (h : hn) : list (option hn * hn) :=
  match h with HN _ n _ _ _ c => (if text_eqb n x then [(parent, h)] else []) ++ flat_map (h_named x (Some h)) c end.

(* Pseudocode.py:266-273 *)
Definition pairs : list (text * text) :=
  [ (tx "emu-grammar", tx "{h_emu_grammar}"); (tx "emu-alg", tx "{h_emu_alg}"); (tx "figure", tx "{h_figure}"); (tx "a", tx "{h_a}"); (tx "pre", tx "{h_pre_code}") ].
(* 307-309 *)
Fixpoint link (hs : list hn) (bs : list an) : res (list (nat * nat)) :=
  match hs, bs with
  | h :: hs', b :: bs' =>
      do _ <- assert_ (existsb (fun p => text_eqb (fst p) (h_name h) && text_eqb (snd p) (a_lhs b)) pairs) ;;
      do r <- link hs' bs' ;; Ok ((a_id b, h_id h) :: r)
  | _, _ => Ok []
  end.
(* 264-309  connect_anodes_to_hnodes: which _hnode is set to what *)
Definition connect (h : hn) (a : an) : res (list (nat * nat)) :=
  let hs := filter (fun d => existsb (fun p => text_eqb (fst p) (h_name d)) pairs) (h_desc h) in
  let bs := filter (fun b => existsb (fun p => text_eqb (snd p) (a_lhs b)) pairs) (a_desc a) in
  do _ <- assert_ (length bs =? length hs) ;; link hs bs.

Section Parse.
Variable parser : hn -> text -> option an.   (* pseudocode_parser.parse_and_handle_errors, for the goal *)
Variable annotate : an -> res unit.          (* annotate_invocations *)
Variable identify : hn -> res unit.          (* 193-197: the section that a failure is reported in *)

(* what has been done: the trees that are set, the connections, and the calls of the parser *)
Record pst := mkPst { s_trees : list (nat * option an); s_links : list (nat * nat); s_calls : list (nat * text) }.
(* hasattr(hnode, '_syntax_tree') *)
Definition has_tree (s : pst) (h : hn) : bool := existsb (fun e => fst e =? h_id h) (s_trees s).
(* 148-187 *)
Definition goal_of (name : text) (what : option text) : res text :=
  let is x := match what with Some w => text_eqb w x | None => false end in
  let none := match what with None => true | _ => false end in
  if text_eqb name (tx "emu-alg") then do _ <- assert_ none ;; Ok (tx "EMU_ALG_BODY")
  else if text_eqb name (tx "emu-eqn") then do _ <- assert_ none ;; Ok (tx "EMU_EQN_DEF")
  else if text_eqb name (tx "td") then if is (tx "field_value_type") then Ok (tx "FIELD_VALUE_TYPE") else if is (tx "op_signature") then Ok (tx "OP_SIGNATURE") else Err AssertionError
  else if text_eqb name (tx "dd") then do _ <- assert_ none ;; Ok (tx "FOR_PHRASE")
  else if text_eqb name (tx "h1") then Ok (tx "OP_SIGNATURE")
  else if text_eqb name (tx "li") then if is (tx "early_error") then Ok (tx "EARLY_ERROR_RULE") else if is (tx "inline_sdo") then Ok (tx "INLINE_SDO_RULE") else Err AssertionError
  else Err AssertionError.
(* Pseudocode.py:141-204  parse *)
Definition parse (s : pst) (h : hn) (what : option text) : res pst :=
  do _ <- assert_ (negb (has_tree s h)) ;;
  do g <- goal_of (h_name h) what ;;
  let t := parser h g in
  let trees := s_trees s ++ [(h_id h, t)] in
  let calls := s_calls s ++ [(h_id h, g)] in
  match t with
  | None => do _ <- identify h ;; Ok (mkPst trees (s_links s) calls)
  | Some a => do ls <- connect h a ;; do _ <- annotate a ;; Ok (mkPst trees (s_links s ++ ls) calls)
  end.
Fixpoint parse_all (s : pst) (l : list (hn * option text)) : res pst :=
  match l with [] => Ok s | (h, w) :: l' => do s' <- parse s h w ;; parse_all s' l' end.

(* Section.py:237-268  ensure_every_emu_alg_in_section_is_parsed *)
Definition shown (h : hn) : bool := is_prefix ([10%N] ++ tx "      1. Top-level step") (h_inner h).
Fixpoint ensure (s : pst) (l : list hn) : res pst :=
  match l with
  | [] => Ok s
  | h :: l' =>
      if has_tree s h then ensure s l'
      else if shown h then ensure (mkPst (s_trees s ++ [(h_id h, None)]) (s_links s) (s_calls s)) l'
      else do s' <- parse s h None ;; ensure s' l'
  end.
(* for the block children of a section *)
Definition ensure_section (s : pst) (blocks : list hn) : res pst := ensure s (map snd (flat_map (h_named (tx "emu-alg") None) blocks)).
Fixpoint ensure_sections (s : pst) (l : list (list hn)) : res pst :=
  match l with [] => Ok s | b :: l' => do s' <- ensure_section s b ;; ensure_sections s' l' end.

(* Pseudocode.py:246-259  check_emu_alg_coverage *)
Fixpoint alg_coverage (s : pst) (l : list (option hn * hn)) : res unit :=
  match l with
  | [] => Ok tt
  | (p, d) :: l' =>
      match p with
      | None => Err AttributeError
      | Some q => do _ <- assert_ (existsb (text_eqb (h_name q)) [tx "emu-clause"; tx "emu-annex"; tx "emu-note"; tx "td"; tx "li"]) ;; do _ <- assert_ (has_tree s d) ;; alg_coverage s l'
      end
  end.
Definition check_alg_coverage (s : pst) (doc : hn) : res unit := alg_coverage s (h_named (tx "emu-alg") None doc).
(* Pseudocode.py:208-242  check_emu_eqn_coverage *)
Fixpoint eqn_coverage (s : pst) (l : list (option hn * hn)) : res unit :=
  match l with
  | [] => Ok tt
  | (p, d) :: l' =>
      if negb (existsb (N.eqb 61) (h_inner d)) then do _ <- assert_ (negb (has_tree s d)) ;; eqn_coverage s l'
      else if negb (h_aoid d) then do _ <- assert_ (negb (has_tree s d)) ;; eqn_coverage s l'
      else match p with
           | None => Err AttributeError
           | Some q =>
               do _ <- assert_ (text_eqb (h_name q) (tx "emu-clause")) ;;
               match h_kind q with
               | None => Err AttributeError
               | Some k => do _ <- assert_ (text_eqb k (tx "catchall")) ;; do _ <- assert_ (has_tree s d) ;; eqn_coverage s l'
               end
           end
  end.
Definition check_eqn_coverage (s : pst) (doc : hn) : res unit := eqn_coverage s (h_named (tx "emu-eqn") None doc).
End Parse.
