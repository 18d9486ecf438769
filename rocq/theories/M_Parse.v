(* Model of es_parser.parse: the Earley parser over text, and over the source of tokens. *)
From Coq Require Import Cantor.
From Verif Require Import M_Base M_Earley M_Tip.

(* es_parser.py:1065-1084  parse with a goal of the lexical grammar: the node found has to cover the whole subject. The terminal instances are characters, so the
   end of a node is the end of its last character (es_parser.py:1989-2008), and 0 if it has none. *)
Fixpoint count_leaves (t : tree) : nat :=
  match t with Leaf _ _ => 1 | Node _ ch => fold_right (fun c n => count_leaves c + n) 0 ch end.
Definition parse_lexical (prods : list prod) (check : option tree -> nat -> nat -> res bool) (goal START : nat) (matches : nat -> N -> bool) (subject : text) (n f : nat) : res tree :=
  do node <- parse prods check false goal START (fun p => p) (lexical_gnti matches subject) (fun _ => Ok None) n f 0 ;;
  if count_leaves node =? length subject then Ok node else Err UserError.

Section Syntactic.
  Variable source : text.
  Variable lex : lgoal -> nat -> res (ekind * nat * nat).
  Variable reserved : text -> bool.
  (* the terminals and constraints behind the numbers in productions *)
  Variable tm : nat -> term.
  Variable cn : nat -> constraint.
  (* es_parser.py:1466-1474  of the node before a constraint: whether it is an IdentifierName, and its text *)
  Variable ident : tree -> bool * text.
  Definition term_eqb (a b : term) : bool :=
    match a, b with Lit c, Lit d => text_eqb c d | Nam m, Nam n => m =? n | _, _ => false end.
  (* a terminal instance, as a number *)
  Definition instance (m : match_node) : nat := to_nat (m_start m, m_end m).
  Definition kludge_of (k : option nat) : asi_kludge := match k with None => K_none | Some 0 => K_EmptyStatement | Some (S _) => K_DoWhileStatement end.
  (* es_parser.py:872, 888  tip.get_next_terminal_instances *)
  Definition syn_gnti (p : tip * nat) (exp : list nat) (kl : option nat) : res (option (list (nat * nat) * (tip * nat))) :=
    do r <- gnti source lex (fst p) (snd p) (map tm exp) (kludge_of kl) ;;
    Ok match fst r with
       | None => None
       | Some (ms, next) => Some (flat_map (fun n => map (fun xm => (n, instance (snd xm))) (filter (fun xm => term_eqb (fst xm) (tm n)) ms)) exp, (snd r, next))
       end.
  (* es_parser.py:575  tip.check_constraint *)
  Definition syn_check (prev : option tree) (p : tip * nat) (c : nat) : res bool :=
    check_constraint source reserved (fst p) (match prev with Some t => Some (ident t) | None => None end) (cn c).
  (* es_parser.py:857-868  ASI_kludge; semicolon is the number of T_lit(';'), and kind tells EmptyStatement and DoWhileStatement... *)
  Variable semicolon : nat.
  Variable kind : nat -> asi_kludge.
  Fixpoint kludge_from (its : list item) (k : option nat) : res (option nat) :=
    match its with
    | [] => Ok k
    | i :: its' =>
      match kind (lhs (pr i)) with
      | K_none => kludge_from its' k
      | K_EmptyStatement => do _ <- assert_ (match k with None => true | Some _ => false end) ;; kludge_from its' (Some 0)
      | K_DoWhileStatement => do _ <- assert_ (match k with None => true | Some _ => false end) ;; kludge_from its' (Some 1)
      end
    end.
  Definition asi_kludge_in (its : list item) : res (option nat) := kludge_from (expecting (TM semicolon) its) None.

  Variable prods : list prod.
  Variables goal START : nat.
  (* es_parser.py:1045-1063  parse with a goal of the syntactic grammar, of a text *)
  Definition parse_from (n f : nat) (t : tip) (posn : nat) : res tree :=
    parse prods syn_check true goal START snd syn_gnti asi_kludge_in n f (t, posn).
  Definition parse_syntactic (n f : nat) : res tree :=
    do t <- new_tip source lex ;; parse_from n f t 0.
  (* es_parser.py:1051-1063  ... and of a part of it once more, from the state that the first parse has left *)
  Definition parse_again (n f : nat) (t : tip) (start_posn end_posn : nat) : res tree :=
    do t' <- set_reparse_bounds t start_posn end_posn ;; parse_from n f t' start_posn.
End Syntactic.
