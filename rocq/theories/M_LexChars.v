(* Model of how characters are matched with symbols of the lexical grammar:
   es_parser.py (the parser) and pseudocode_semantics.py (the execution of
   pseudocode).  unicodedata.category is a parameter. *)
From Coq Require Import Ascii String.
From Verif Require Import M_Base M_HTML M_Shared M_Expand M_Mathnum M_Values.
Open Scope list_scope.
Open Scope nat_scope.
Notation length := List.length.

(* es_parser.py:20-37  character_named_ *)
Definition character_named_ : list (text * N) :=
  [ (tx "ZWNBSP", 65279%N); (tx "TAB", 9%N); (tx "VT", 11%N); (tx "FF", 12%N);
    (tx "LF", 10%N); (tx "CR", 13%N); (tx "LS", 8232%N); (tx "PS", 8233%N) ].
Fixpoint assoc {A} (k : text) (d : list (text * A)) : option A :=
  match d with
  | [] => None
  | (k', a) :: d' => if text_eqb k k' then Some a else assoc k d'
  end.
Definition named (n : text) : res N := match assoc n character_named_ with Some c => Ok c | None => Err KeyError end.

(* ------------------------------------------------------------------ *)
(* es_parser.py:960-988  gather_char_sets.  prods: the expanded productions, of
   which productions_with_lhs_[name] are those with that left-hand side. *)
Section Gather.
  Variable prods : list exprod.
  Definition with_lhs (name : text) : res (list exprod) :=
    match filter (fun p => text_eqb (ex_lhs p) name) prods with [] => Err KeyError | ps => Ok ps end.
  (* 963-979  recurse; Python gives up at some depth (fuel) *)
  Fixpoint char_set (fuel : nat) (name : text) : res (list text) :=
    match fuel with
    | O => Err OutOfFuel
    | S f =>
      do ps <- with_lhs name ;;
      (fix go (ps : list exprod) (result : list text) : res (list text) :=
         match ps with
         | [] => Ok result
         | p :: ps' =>
           match ex_rhs p with
           | [X_lit c] => go ps' (c :: result)                              (* 968-969 *)
           | [X_named n] => do c <- named n ;; go ps' ([c] :: result)       (* 970-971 *)
           | [X_NT n] => do s <- char_set f n ;; go ps' (s ++ result)       (* 972-973 *)
           | _ => Err AssertionError                                        (* 966, 975 *)
           end
         end) ps []
    end.
  (* 981-991 *)
  Definition set_names : list text :=
    [tx "LineTerminator"; tx "EscapeCharacter"; tx "HexDigit"; tx "OctalDigit"; tx "SyntaxCharacter"].
  Fixpoint gather (fuel : nat) (names : list text) : res (list (text * list text)) :=
    match names with
    | [] => Ok []
    | n :: names' => do s <- char_set fuel n ;; do d <- gather fuel names' ;; Ok ((n, s) :: d)
    end.
  Definition gather_char_sets (fuel : nat) : res (list (text * list text)) := gather fuel set_names.
  (* 995-1011  gather_ReservedWords *)
  Fixpoint words (fuel : nat) (name : text) : res (list text) :=
    match fuel with
    | O => Err OutOfFuel
    | S f =>
      do ps <- with_lhs name ;;
      (fix go (ps : list exprod) (result : list text) : res (list text) :=
         match ps with
         | [] => Ok result
         | p :: ps' =>
           match ex_rhs p with
           | [X_NT n] => do s <- words f n ;; go ps' (s ++ result)          (* 1003-1005 *)
           | [X_lit c] => go ps' (c :: result)                              (* 1006-1007 *)
           | [_] => go ps' result
           | _ => Err AssertionError                                        (* 1000 *)
           end
         end) ps []
    end.
  Definition gather_ReservedWords (fuel : nat) : res (list text) := words fuel (tx "ReservedWord").
End Gather.

(* ------------------------------------------------------------------ *)
Section Chars.
  Variable category : N -> text.                            (* unicodedata.category *)
  Variable char_set_ : list (text * list text).             (* what gather_char_sets left *)

  (* 2182-2183 *)
  Definition other_id_start : list N := [6277; 6278; 12443; 12444; 8472; 8494]%N.
  Definition other_id_continue : list N :=
    [183; 903; 4969; 4970; 4971; 4972; 4973; 4974; 4975; 4976; 4977; 6618; 8204; 8205; 12539; 65381]%N.
  Definition letters : list text := [tx "Lu"; tx "Ll"; tx "Lt"; tx "Lm"; tx "Lo"; tx "Nl"].
  Definition marks : list text := [tx "Mn"; tx "Mc"; tx "Nd"; tx "Pc"].
  Definition tmem (t : text) (l : list text) : bool := existsb (text_eqb t) l.
  Definition cmem (c : N) (l : list N) : bool := existsb (N.eqb c) l.

  Inductive rsym : Set :=
  | RLit (c : text) | RNamed (n : text) | RRange (lo hi : N) | RProp (p : text) | RNT (n : text) | ROther.
  Definition of_b (b : bthing) : rsym := match b with B_NT n => RNT n | B_named n => RNamed n | B_lit c => RLit c end.
  Definition of_l (l : lthing) : rsym := match l with L_lit c => RLit c | L_named n => RNamed n | L_no_LT => ROther end.

  (* es_parser.py:2154-2237  lexical_Rsymbol_matches_char, for a single character *)
  Definition sym_matches (r : rsym) (c : N) : res bool :=
    match r with
    | RNamed n =>
        if text_eqb n (tx "_ACCEPTANCE_") then Ok false                              (* 2159-2160 *)
        else if text_eqb n (tx "USP") then Ok (text_eqb (category c) (tx "Zs"))      (* 2168-2172 *)
        else do d <- named n ;; Ok (c =? d)%N                                        (* 2174 *)
    | RLit s => match s with [d] => Ok (d =? c)%N | _ => Err AssertionError end      (* 2162-2164 *)
    | RRange lo hi => Ok ((lo <=? c) && (c <=? hi))%N                                (* 2176-2179 *)
    | RProp p =>
        if text_eqb p (tx "ID_Start") then                                           (* 2186-2190 *)
          Ok (tmem (category c) letters || cmem c other_id_start)
        else if text_eqb p (tx "ID_Continue") then                                   (* 2193-2201 *)
          Ok ((tmem (category c) (letters ++ marks) || cmem c other_id_start || cmem c other_id_continue)
              && negb (c =? 11823)%N)
        else Err AssertionError
    | RNT n => match assoc n char_set_ with                                          (* 2230-2232 *)
               | Some s => Ok (tmem [c] s)
               | None => Err AssertionError
               end
    | ROther => Err AssertionError
    end.
  (* 2146-2152  char_matches_any_of_the_symbols *)
  Definition any_sym_matches (t : text) (rs : list rsym) : res bool :=
    match t with
    | [c] => any_ (fun r => sym_matches r c) rs
    | _ => Err AssertionError
    end.

  (* int(t, 16) *)
  Definition hex_value (t : text) : res Z :=
    match t with
    | [] => Err ValueError
    | _ => match int_of 16 0 t with Some z => Ok z | None => Err ValueError end
    end.
  (* es_parser.py:1846-1917  LexicalTIP.check_constraint; sym and t: the symbol and
     the text of the node before it; next: the character at the current position,
     if there is one *)
  Definition check_constraint (sym : option text) (t : text) (next : option N) (x : xthing) : res bool :=
    match x with
    | X_but_not b => do m <- any_sym_matches t (map of_b b) ;; Ok (negb m)           (* 1847-1848 *)
    | X_but_only_if c =>
        if text_in (tx "MV of |HexDigits|") c then                                   (* 1851 *)
          do _ <- assert_ (match sym with Some s => text_eqb s (tx "HexDigits") | None => false end) ;;
          do v <- hex_value t ;;
          if text_eqb c (tx "the MV of |HexDigits| &le; 0x10FFFF") then Ok (v <=? 1114111)%Z
          else if text_eqb c (tx "the MV of |HexDigits| > 0x10FFFF") then Ok (1114111 <? v)%Z
          else Err AssertionError
        else if text_in (tx "MV of |Hex4Digits|") c then                             (* 1863 *)
          do _ <- assert_ (match sym with Some s => text_eqb s (tx "Hex4Digits") | None => false end) ;;
          do v <- hex_value t ;;
          if text_eqb c (tx "the MV of |Hex4Digits| is in the inclusive interval from 0xD800 to 0xDBFF")
          then Ok ((55296 <=? v) && (v <=? 56319))%Z
          else if text_eqb c (tx "the MV of |Hex4Digits| is in the inclusive interval from 0xDC00 to 0xDFFF")
          then Ok ((56320 <=? v) && (v <=? 57343))%Z
          else if text_eqb c (tx "the MV of |Hex4Digits| is not in the inclusive interval from 0xD800 to 0xDFFF")
          then Ok (negb ((55296 <=? v) && (v <=? 57343)))%Z
          else Err AssertionError
        else if text_eqb c (tx "the CapturingGroupNumber of |DecimalEscape| is &le; CountLeftCapturingParensWithin(the |Pattern| containing |DecimalEscape|)")
        then Ok true                                                                 (* 1877-1886 *)
        else Err AssertionError
    | X_lookahead matches tss =>                                                     (* 1891-1914 *)
        do any <- match next with
                  | Some d => any_ (fun ts => match ts with
                                              | [l] => sym_matches (of_l l) d
                                              | _ => Err AssertionError
                                              end) tss
                  | None => Ok false
                  end ;;
        Ok (if matches then any else negb any)
    | _ => Err AssertionError                                                        (* 1917 *)
    end.

  (* ---------------------------------------------------------------- *)
  (* pseudocode_semantics.py:3630-3692  unicode_character_has_property, and the
     lists of unicode_contributory_properties.py, Pattern_Syntax as ranges *)
  Definition ucp_other_id_start : list N := [6277; 6278; 8472; 8494; 12443; 12444]%N.
  Definition ucp_other_id_continue : list N :=
    [183; 903; 4969; 4970; 4971; 4972; 4973; 4974; 4975; 4976; 4977; 6618; 8204; 8205; 12539; 65381]%N.
  Definition pattern_syntax : list (N * N) :=
    [(33, 47); (58, 64); (91, 94); (96, 96); (123, 126); (161, 167); (169, 169); (171, 172); (174, 174);
     (176, 177); (182, 182); (187, 187); (191, 191); (215, 215); (247, 247); (8208, 8231); (8240, 8254);
     (8257, 8275); (8277, 8286); (8592, 9311); (9472, 10101); (10132, 11263); (11776, 11903);
     (12289, 12291); (12296, 12320); (12336, 12336); (64830, 64831); (65093, 65094)]%N.
  Definition pattern_white_space : list N := [9; 10; 11; 12; 13; 32; 133; 8206; 8207; 8232; 8233]%N.
  Definition in_ranges (c : N) (rs : list (N * N)) : bool :=
    existsb (fun r : N * N => ((fst r <=? c) && (c <=? snd r))%N) rs.
  Definition id_start (c : N) : bool :=                                              (* 3641-3662 *)
    (tmem (category c) letters || cmem c ucp_other_id_start)
    && negb (in_ranges c pattern_syntax) && negb (cmem c pattern_white_space).
  Definition id_continue (c : N) : bool :=                                           (* 3664-3689 *)
    (id_start c || tmem (category c) marks || cmem c ucp_other_id_continue)
    && negb (in_ranges c pattern_syntax) && negb (cmem c pattern_white_space).
  Definition has_property (c : N) (p : text) : res bool :=
    if text_eqb p (tx "ID_Start") then Ok (id_start c)
    else if text_eqb p (tx "ID_Continue") then Ok (id_continue c)
    else Err AssertionError.

  (* pseudocode_semantics.py:4123-4160  pychar_matches_lexical_nonterminal over the
     productions as the document has them: a right-hand side is a line of items, or
     (in a production with one of) a single literal, which is refused *)
  Inductive wrhs : Type := WLine (items : list ritem) | WLiteral (chars : text).
  Variable wprods : list (text * list wrhs).              (* prodn_for_lhs_ *)
  Definition zw_named (n : text) : res N :=                                          (* 4148-4151 *)
    if text_eqb n (tx "ZWNJ") then Ok 8204%N else if text_eqb n (tx "ZWJ") then Ok 8205%N else Err KeyError.
  Fixpoint char_matches_nt (fuel : nat) (c : N) (name : text) : res bool :=
    match fuel with
    | O => Err OutOfFuel
    | S f =>
      match assoc name wprods with
      | None => Err KeyError
      | Some rhss =>
        any_ (fun rhs =>
          match rhs with
          | WLine [R_sym (S_GNT n [])] => char_matches_nt f c n                      (* 4136-4137 *)
          | WLine [R_sym (S_lit s)] => Ok (text_eqb [c] s)                           (* 4139-4140 *)
          | WLine [R_U_PROP p] => has_property c p                                   (* 4142-4144 *)
          | WLine [R_sym (S_char n)] => do d <- zw_named n ;; Ok (c =? d)%N           (* 4146-4152 *)
          | _ => Err AssertionError                                                  (* 4131-4132, 4135, 4155 *)
          end) rhss
      end
    end.
  (* pseudocode_semantics.py:4483-4487 *)
  Definition not_matched_cond (fuel : nat) (c : N) (name : text) : res bool :=
    do b <- char_matches_nt fuel c name ;; Ok (negb b).
End Chars.
