(* Model of the source of tokens for the syntactic parser (SyntacticTIP), es_parser.py. *)
From Verif Require Import M_Base.

(* what an input element is: a non-token, the end, an inserted semicolon, or another token with what get_named_token finds in it:
   a node of the given name, or none (punctuators), or a symbol that is not in its lists *)
Inductive nontoken := WhiteSpace | LineTerminator | Comment (contains_a_LineTerminator : bool).
Inductive ekind := E_non (n : nontoken) | E_end | E_semicolon | E_named (name : nat) | E_punct | E_unknown.
(* ES_ParseNode: objects are told apart by eid *)
Record elem := mkE { eid : nat; ek : ekind; estart : nat; eend : nat }.
(* expected terminals: T_lit, T_named. Names: 0 _EOI_, 1 RegularExpressionLiteral, 2 TemplateTail, 3 TemplateMiddle, others *)
Inductive term := Lit (c : text) | Nam (n : nat).
Notation N_EOI := 0. Notation N_REL := 1. Notation N_TemplateTail := 2. Notation N_TemplateMiddle := 3.
(* es_parser.py:1202-1205, 1273  ';' and '}' *)
Definition semi : text := [59%N].
Definition brace : text := [125%N].
(* the lexical goals *)
Inductive lgoal := InputElement_common | InputElementDiv | InputElementRegExp | InputElementRegExpOrTemplateTail | InputElementTemplateTail.
Inductive asi_kludge := K_none | K_EmptyStatement | K_DoWhileStatement.
(* C_lookahead (matches, terminal sequences), C_no_LT_here, C_but_not ReservedWord *)
Inductive lterm := LT_lit (c : text) | LT_nlth.
Inductive constraint := C_lookahead (matches : bool) (tss : list (list lterm)) | C_no_LT_here | C_but_not.
(* the node given to the parser *)
Record match_node := mkM { m_start : nat; m_end : nat }.

(* es_parser.py:1128-1141  the fields; ies_i is kept beside each token; temp_posn_of_latest_asi and _end_token_i are None for -1 and sys.maxsize *)
Record tip := mkTip {
  asi_posn : option nat; elems : list elem; toks : list (elem * nat); cur : Z; scout : nat; done : bool; end_i : option Z; fresh : nat }.

(* l[i] with Python's negative indices *)
Definition py_nth {A} (l : list A) (i : Z) : res A :=
  let i' := if (i <? 0)%Z then (i + Z.of_nat (length l))%Z else i in
  if (i' <? 0)%Z then Err IndexError else match nth_error l (Z.to_nat i') with Some x => Ok x | None => Err IndexError end.

Section Tip.
  Variable source : text.
  (* lexical_earley.run(goal, lexical_tip, posn): kind, start and end of the input element *)
  Variable lex : lgoal -> nat -> res (ekind * nat * nat).
  (* whether a name is in ReservedWords *)
  Variable reserved : text -> bool.

  (* es_parser.py:2058-2059  text *)
  Definition etext (e : elem) : text := firstn (eend e - estart e) (skipn (estart e) source).
  (* es_parser.py:1590-1598 *)
  Definition is_token (k : ekind) : bool := match k with E_non _ => false | _ => true end.

  (* es_parser.py:1584-1602  installing an input element *)
  Definition install (t : tip) (e : elem) : tip :=
    mkTip (asi_posn t) (elems t ++ [e]) (if is_token (ek e) then toks t ++ [(e, length (elems t))] else toks t) (cur t) (scout t) (done t) (end_i t) (S (fresh t)).
  (* es_parser.py:1558-1602  _get_one_input_element: whether there was one, and the state *)
  Definition get_one (t : tip) (g : lgoal) : res (bool * tip) :=
    if done t then Ok (false, t)
    else if scout t =? length source then
      Ok (true, install (mkTip (asi_posn t) (elems t) (toks t) (cur t) (scout t) true (end_i t) (fresh t)) (mkE (fresh t) E_end (scout t) (scout t)))
    else
      do r <- lex g (scout t) ;;
      let '(k, s, e) := r in
      do _ <- assert_ (s =? scout t) ;;
      do _ <- assert_ (s <? e) ;;
      Ok (true, install (mkTip (asi_posn t) (elems t) (toks t) (cur t) e (done t) (end_i t) (fresh t)) (mkE (fresh t) k s e)).
  (* es_parser.py:1541-1554  _scout_ahead *)
  Fixpoint scout_ahead (n : nat) (t : tip) : res tip :=
    match n with
    | 0 => Err OutOfFuel
    | S n =>
      match get_one t InputElement_common with
      | Ok (true, t') => scout_ahead n t'
      | Ok (false, t') => Ok t'
      | Err UserError => Ok t
      | Err e => Err e
      end
    end.
  (* enough for _scout_ahead, whose loop has no bound *)
  Definition fuel : nat := S (S (length source)).
  (* es_parser.py:1128-1141 *)
  Definition new_tip : res tip :=
    do t <- scout_ahead fuel (mkTip None [] [] (-1) 0 false None 0) ;;
    Ok t.
  (* es_parser.py:1512-1537  advance_token_cursor: the token, and the state *)
  Definition advance_token_cursor (t : tip) (g : lgoal) : res (elem * tip) :=
    let c := (cur t + 1)%Z in
    let t := mkTip (asi_posn t) (elems t) (toks t) c (scout t) (done t) (end_i t) (fresh t) in
    let token (t : tip) := do k <- py_nth (toks t) c ;; Ok (fst k, t) in
    do _ <- assert_ (match end_i t with Some m => c <=? m | None => true end)%Z ;;
    if match end_i t with Some m => (c =? m)%Z | None => false end then
      do k <- py_nth (toks t) c ;;
      let p := estart (fst k) in
      Ok (mkE (fresh t) E_end p p, mkTip (asi_posn t) (elems t) (toks t) c (scout t) (done t) (end_i t) (S (fresh t)))
    else
      do _ <- assert_ (c <=? Z.of_nat (length (toks t)))%Z ;;
      if (c <? Z.of_nat (length (toks t)))%Z then token t
      else
        do bt <- get_one t g ;;
        do _ <- assert_ (fst bt) ;;
        do _ <- assert_ (c <? Z.of_nat (length (toks (snd bt))))%Z ;;
        do t' <- scout_ahead fuel (snd bt) ;;
        token t'.

  (* es_parser.py:1400-1443  get_lexical_goal_symbol *)
  Definition names (exp : list term) : list nat := flat_map (fun x => match x with Nam n => [n] | Lit _ => [] end) exp.
  Definition lexical_goal (exp : list term) : res lgoal :=
    let permitted n := existsb (Nat.eqb n) (names exp) in
    do _ <- assert_ (eqb (permitted N_TemplateTail) (permitted N_TemplateMiddle)) ;;
    Ok match permitted N_REL, permitted N_TemplateTail with
       | true, true => InputElementRegExpOrTemplateTail
       | true, false => InputElementRegExp
       | false, true => InputElementTemplateTail
       | false, false => InputElementDiv
       end.
  (* es_parser.py:1341-1391  get_named_token: the name found, if any *)
  Definition named_token (e : elem) : res (option nat) :=
    match ek e with
    | E_named n => Ok (Some n)
    | E_end | E_punct | E_semicolon => Ok None
    | E_non _ | E_unknown => Err AssertionError
    end.
  (* es_parser.py:1199-1231  the expected terminals that the token is an instance of *)
  Definition matching (e : elem) (nt : option nat) (exp : list term) : list (term * match_node) :=
    let tt := match ek e with E_semicolon => semi | _ => etext e end in
    flat_map (fun x => if match x with
                          | Nam n => if (n =? N_EOI) && match ek e with E_end => true | _ => false end then true
                                     else match nt with Some m => n =? m | None => false end
                          | Lit c => text_eqb c tt
                          end
                       then [(x, mkM (estart e) (eend e))] else []) exp.

  (* es_parser.py:1780-1794  a_LineTerminator_occurs_in *)
  Fixpoint lt_in (l : list elem) : res bool :=
    match l with
    | [] => Ok false
    | e :: l' =>
      match ek e with
      | E_non LineTerminator | E_non (Comment true) => Ok true
      | E_non WhiteSpace | E_non (Comment false) => lt_in l'
      | _ => Err AssertionError
      end
    end.
  (* l[a:b], with the list first *)
  Definition slice {A} (l : list A) (a b : nat) : list A := firstn (b - a) (skipn a l).
  (* es_parser.py:1750-1778  rel_gap_contains_a_LineTerminator *)
  Definition rel_gap (t : tip) (off : Z) : res bool :=
    let n := Z.of_nat (length (toks t)) in
    do _ <- assert_ (cur t <? n)%Z ;;
    do _ <- py_nth (toks t) (cur t) ;;
    do po <- (if (off <? 0)%Z then Ok off else if (0 <? off)%Z then Ok (off - 1)%Z else Err AssertionError) ;;
    let p := (cur t + po)%Z in
    let f := (p + 1)%Z in
    do _ <- assert_ ((-1 <=? p) && (p <? n))%Z ;;
    do _ <- assert_ ((0 <=? f) && (f <=? n))%Z ;;
    do a <- (if (0 <=? p)%Z then do k <- py_nth (toks t) p ;; Ok (S (snd k)) else Ok 0) ;;
    do b <- (if (f <? n)%Z then do k <- py_nth (toks t) f ;; Ok (snd k) else Ok (length (elems t))) ;;
    lt_in (slice (elems t) a b).
  (* es_parser.py:1706-1748  rel_token_matches_symbol *)
  Definition rel_token (t : tip) (off : Z) (c : text) : bool :=
    let i := (cur t + off)%Z in
    if (0 <=? i)%Z then match nth_error (toks t) (Z.to_nat i) with Some (e, _) => text_eqb (etext e) c | None => false end else false.
  (* es_parser.py:1635-1682  lookahead_matches_terminal_sequence *)
  Definition lookahead (t : tip) (ts : list lterm) : res bool :=
    match ts with
    | [LT_lit a] => Ok (rel_token t 1 a)
    | [LT_lit a; LT_lit b] => Ok (rel_token t 1 a && rel_token t 2 b)
    | [LT_lit a; LT_nlth; LT_lit b] =>
      if rel_token t 1 a then do g <- rel_gap t 2 ;; if g then Ok false else Ok (rel_token t 2 b) else Ok false
    | _ => Err AssertionError
    end.
  (* es_parser.py:1451-1454 *)
  Fixpoint any_lookahead (t : tip) (tss : list (list lterm)) : res bool :=
    match tss with
    | [] => Ok false
    | ts :: tss' => do b <- lookahead t ts ;; if b then Ok true else any_lookahead t tss'
    end.
  (* es_parser.py:1447-1480  check_constraint; [prev]: whether the node before is an IdentifierName, and its text, if there is such a node *)
  Definition check_constraint (t : tip) (prev : option (bool * text)) (c : constraint) : res bool :=
    match c with
    | C_lookahead m tss => do b <- any_lookahead t tss ;; Ok (if m then b else negb b)
    | C_no_LT_here => do b <- rel_gap t 1 ;; Ok (negb b)
    | C_but_not => match prev with Some (true, x) => Ok (negb (reserved x)) | Some (false, _) => Err AssertionError | None => Err AttributeError end
    end.

  (* l.insert(i, x) for i <= len(l) *)
  Definition insert_at {A} (l : list A) (i : nat) (x : A) : list A := firstn i l ++ x :: skipn i l.
  (* es_parser.py:1606-1623  insert_before_current_token *)
  Definition insert_before_current (t : tip) (s : elem) : res tip :=
    do k <- py_nth (toks t) (cur t) ;;
    let (ct, i) := k in
    do e <- match nth_error (elems t) i with Some e => Ok e | None => Err IndexError end ;;
    do _ <- assert_ (eid e =? eid ct) ;;
    let c := Z.to_nat (cur t) in
    Ok (mkTip (asi_posn t) (insert_at (elems t) i s)
              (firstn c (toks t) ++ (s, i) :: map (fun x => (fst x, S (snd x))) (skipn c (toks t)))
              (cur t) (scout t) (done t) (end_i t) (fresh t)).

  (* es_parser.py:1288-1292 *)
  Definition is_semi (x : term) : bool := match x with Lit c => text_eqb c semi | Nam _ => false end.
  (* es_parser.py:1162-1335  get_next_terminal_instances: the pairs with the next position, or None; and the state *)
  Definition gnti (t : tip) (posn : nat) (exp : list term) (kl : asi_kludge) : res (option (list (term * match_node) * nat) * tip) :=
    do g <- lexical_goal exp ;;
    do et <- advance_token_cursor t g ;;
    let (token, t) := (et : elem * tip) in
    do nt <- named_token token ;;
    match matching token nt exp with
    | _ :: _ => Ok (Some (matching token nt exp, eend token), t)
    | [] =>
      do may <- match ek token with
                | E_end => Ok true
                | _ =>
                  do b <- rel_gap t (-1) ;;
                  Ok (b || text_eqb (etext token) brace || match kl with K_DoWhileStatement => true | _ => false end)
                end ;;
      if negb may then Ok (None, t)
      else if match asi_posn t with Some p => p =? posn | None => false end then Ok (None, t)
      else
        let t := mkTip (Some posn) (elems t) (toks t) (cur t) (scout t) (done t) (end_i t) (fresh t) in
        match filter is_semi exp with
        | [] => Ok (None, t)
        | [s] =>
          match kl with
          | K_EmptyStatement => Ok (None, t)
          | _ =>
            let node := mkE (fresh t) E_semicolon posn posn in
            do t' <- insert_before_current (mkTip (asi_posn t) (elems t) (toks t) (cur t) (scout t) (done t) (end_i t) (S (fresh t))) node ;;
            Ok (Some ([(s, mkM posn posn)], posn), t')
          end
        | _ => Err AssertionError
        end
    end.

  (* es_parser.py:1492-1510  set_reparse_bounds *)
  Definition indices {A} (f : A -> bool) (l : list A) : list nat :=
    map fst (filter (fun x => f (snd x)) (combine (seq 0 (length l)) l)).
  Definition set_reparse_bounds (t : tip) (s e : nat) : res tip :=
    match indices (fun x => estart (fst x) =? s) (toks t) with
    | [k] =>
      match indices (fun x => e <=? estart (fst x)) (toks t) with
      | [] => Err ValueError
      | m :: _ => Ok (mkTip (asi_posn t) (elems t) (toks t) (Z.of_nat k - 1) (scout t) (done t) (Some (Z.of_nat m)) (fresh t))
      end
    | _ => Err ValueError
    end.
End Tip.
