(* Model of simplify_grammar of es_parser.py: expanding the productions with grammatical parameters and optional symbols. *)
From Verif Require Import M_Base M_GramCheck.

(* emu_grammars.py:318-371  the parts of a right-hand side (metagrammar); names and characters as text *)
Inductive symbol := S_GNT (name : text) (args : list (arg_prefix * text)) | S_lit (chars : text) | S_char (name : text).
Inductive titem := TI_lit (chars : text) | TI_char (name : text) | TI_NLTH.
Inductive operand := O_NT (name : text) | O_set (seqs : list (list titem)).
Inductive excludable := E_NT (name : text) | E_lit (chars : text).
Inductive ritem :=
| R_PARAMS | R_LABEL
| R_sym (s : symbol)
| R_QM (s : symbol)
| R_U_PROP (p : text) | R_U_RANGE (lo hi : N) | R_U_ANY
| R_LAC_SINGLE (equal : bool) (ts : list titem)     (* == or != *)
| R_LAC_SET (isin : bool) (o : operand)             (* &isin; or &notin; *)
| R_BUT_ONLY (c : text) | R_NLTH | R_BUT_NOT (b : list excludable).
(* RHS_LINE with a guard, or BACKTICKED_THING *)
Record rhs_n := mkRhs { guard : option (list (arg_prefix * text)); items : list ritem; reduced : text }.
Record prodn := mkPr { p_lhs : text; p_params : list text; p_rhss : list rhs_n }.

(* es_parser.py:47-55  the symbols and constraints of the expanded grammar *)
Inductive lthing := L_lit (chars : text) | L_named (name : text) | L_no_LT.
Inductive bthing := B_NT (name : text) | B_named (name : text) | B_lit (chars : text).
Inductive xthing :=
| X_NT (n : text) | X_lit (c : text) | X_named (n : text) | X_u_p (p : text) | X_u_r (lo hi : N)
| X_but_only_if (c : text) | X_but_not (b : list bthing) | X_no_LT_here | X_lookahead (matches : bool) (tss : list (list lthing)).
(* es_parser.py:409 *)
Record exprod := mkEx { ex_lhs : text; ex_rhs : list xthing; og_lhs : text; og_rhs_reduced : text; og_params_setting : list text }.

Definition plus : N := 43%N.
Definition tilde : N := 126%N.
Definition qmark : N := 63%N.

Section Expand.
  Variable lexical : bool.                 (* grammar.level == 'lexical' *)
  Variable prodns : list prodn.            (* grammar.prodn_for_lhs_ *)
  (* emu_grammars.py:1767-1771  Grammar.get_name_kind *)
  Definition is_NT (name : text) : bool := existsb (fun p => text_eqb (p_lhs p) name) prodns.
  (* es_parser.py:129-138  each_params_setting *)
  Definition each_setting (params : list text) : res (list (list text)) :=
    do vs <- each_boolean_vector_of_length (length params) ;;
    Ok (map (fun bools => map (fun bp : bool * text => (if fst bp then plus else tilde) :: snd bp) (combine bools params)) vs).
  (* es_parser.py:179-197  expand_nt_wrt_params_setting *)
  Fixpoint expand_with (result : text) (args : list (arg_prefix * text)) (setting : list text) : res text :=
    match args with
    | [] => Ok result
    | (p, a) :: args' =>
      do s <- match p with
              | AQuestion => match find (fun s => text_eqb (tl s) a) setting with Some s => Ok s | None => Err AssertionError end
              | APlus => Ok (plus :: a)
              | ATilde => Ok (tilde :: a)
              | AOther => Err AssertionError
              end ;;
      expand_with (result ++ s) args' setting
    end.
  Definition expand_nt (name : text) (args : list (arg_prefix * text)) (setting : list text) : res text := expand_with name args setting.
  (* es_parser.py:403-407  add_exp_prod1; the productions in the order in which they are added *)
  Definition add_prod (st : list exprod) (p : exprod) : list exprod := st ++ [p].
  Definition has_lhs (st : list exprod) (n : text) : bool := existsb (fun p => text_eqb (ex_lhs p) n) st.
  (* es_parser.py:299-313  convert_terminal_seq_n *)
  Definition convert_seq (ts : list titem) : list lthing := map (fun t => match t with TI_lit c => L_lit c | TI_char n => L_named n | TI_NLTH => L_no_LT end) ts.
  (* es_parser.py:324-340  the operand of a set constraint *)
  Definition convert_operand (o : operand) : res (list (list lthing)) :=
    match o with
    | O_NT name =>
      match find (fun p => text_eqb (p_lhs p) name) prodns with
      | None => Err KeyError
      | Some p =>
        (fix go (l : list rhs_n) := match l with
          | [] => Ok []
          | r :: l' => match guard r, items r with None, [R_sym (S_lit c)] => do tss <- go l' ;; Ok ([L_lit c] :: tss) | _, _ => Err AssertionError end
          end) (p_rhss p)
      end
    | O_set seqs => Ok (map convert_seq seqs)
    end.
  (* es_parser.py:353-384  BUT_NOT *)
  Definition convert_excludable (e : excludable) : bthing :=
    match e with E_NT n => if is_NT n then B_NT n else B_named n | E_lit c => B_lit c end.
  (* es_parser.py:205-218  the guard of a RHS_LINE: each part of it, as text, is in the setting *)
  Definition guard_text (g : arg_prefix * text) : text :=
    match fst g with AQuestion => qmark :: snd g | APlus => plus :: snd g | ATilde => tilde :: snd g | AOther => snd g end.
  Definition guard_ok (r : rhs_n) (setting : list text) : bool :=
    match guard r with None => true | Some gs => forallb (fun g => existsb (text_eqb (guard_text g)) setting) gs end.
  (* es_parser.py:220-389  one item: the things that it adds to the right-hand side, and the productions afterwards *)
  Definition expand_item (setting : list text) (i n : nat) (item : ritem) (st : list exprod) : res (list xthing * list exprod) :=
    match item with
    | R_PARAMS => do _ <- assert_ (i =? 0) ;; Ok ([], st)
    | R_LABEL => do _ <- assert_ (i =? n - 1) ;; Ok ([], st)
    | R_sym (S_GNT name args) =>
      do e <- expand_nt name args setting ;; Ok ([if is_NT name then X_NT e else X_named e], st)
    | R_QM s =>
      do bto <- match s with
                | S_GNT name args => do e <- expand_nt name args setting ;; Ok (e, X_NT e, name)
                | S_lit c => Ok (c, X_lit c, c)
                | S_char _ => Err AssertionError
                end ;;
      let '(base, thing, o_base) := bto in
      let name := base ++ [qmark] in
      Ok ([X_NT name],
          if has_lhs st name then st
          else add_prod (add_prod st (mkEx name [thing] (o_base ++ [qmark]) o_base setting)) (mkEx name [] (o_base ++ [qmark]) [] setting))
    | R_sym (S_lit c) => Ok (if lexical && (1 <? length c) then map (fun x => X_lit [x]) c else [X_lit c], st)
    | R_sym (S_char n) => Ok ([X_named n], st)
    | R_U_PROP p => Ok ([X_u_p p], st)
    | R_U_RANGE lo hi => Ok ([X_u_r lo hi], st)
    | R_U_ANY => Ok ([X_u_r 0 1114111], st)
    | R_LAC_SINGLE equal ts => Ok ([X_lookahead equal [convert_seq ts]], st)
    | R_LAC_SET _ o => do tss <- convert_operand o ;; Ok ([X_lookahead false tss], st)
    | R_BUT_ONLY c => Ok ([X_but_only_if c], st)
    | R_NLTH => Ok ([X_no_LT_here], st)
    | R_BUT_NOT b => Ok ([X_but_not (map convert_excludable b)], st)
    end.
  Fixpoint expand_items (setting : list text) (i n : nat) (its : list ritem) (st : list exprod) : res (list xthing * list exprod) :=
    match its with
    | [] => Ok ([], st)
    | it :: its' =>
      do a <- expand_item setting i n it st ;;
      do b <- expand_items setting (S i) n its' (snd a) ;;
      Ok (fst a ++ fst b, snd b)
    end.
  (* es_parser.py:201-391  simplify_prod *)
  Definition simplify_prod (setting : list text) (lhs : text) (r : rhs_n) (st : list exprod) : res (list exprod) :=
    if negb (guard_ok r setting) then Ok st
    else
      do a <- expand_items setting 0 (length (items r)) (items r) st ;;
      Ok (add_prod (snd a) (mkEx (lhs ++ concat setting) (fst a) lhs (reduced r) setting)).
  (* es_parser.py:96-125  simplify_grammar *)
  Definition each {A} (f : A -> list exprod -> res (list exprod)) : list A -> list exprod -> res (list exprod) :=
    fix go l st := match l with [] => Ok st | x :: l' => do st' <- f x st ;; go l' st' end.
  Definition InputElement_common : text := [73;110;112;117;116;69;108;101;109;101;110;116;95;99;111;109;109;111;110]%N.
  Definition WhiteSpace_ : text := [87;104;105;116;101;83;112;97;99;101]%N.
  Definition LineTerminator_ : text := [76;105;110;101;84;101;114;109;105;110;97;116;111;114]%N.
  Definition Comment_ : text := [67;111;109;109;101;110;116]%N.
  Definition CommonToken_ : text := [67;111;109;109;111;110;84;111;107;101;110]%N.
  (* es_parser.py:395-400  make_InputElement_common *)
  Definition make_InputElement_common (st : list exprod) : list exprod :=
    fold_left (fun st n => add_prod st (mkEx InputElement_common [X_NT n] InputElement_common n [])) [WhiteSpace_; LineTerminator_; Comment_; CommonToken_] st.
  Definition simplify_grammar : res (list exprod) :=
    do st <- each (fun p st =>
               do ss <- each_setting (p_params p) ;;
               each (fun setting => each (simplify_prod setting (p_lhs p)) (p_rhss p)) ss st)
             (isort (fun a b => text_leb (p_lhs a) (p_lhs b)) prodns) [] ;;
    Ok (if lexical then make_InputElement_common st else st).
End Expand.
