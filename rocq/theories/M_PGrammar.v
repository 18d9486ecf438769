(* Model of the reading of a grammar for pseudocode (Pseudocode_Parser.py:416-517): convert_grammar_string_to_productions and the regular expression for the pieces of right-hand sides. *)
From Coq Require Import Ascii String.
From Verif Require Import M_Base M_HTML M_Shared M_Indent M_Defs M_Refs M_Style M_Validate M_PropPath.
Open Scope list_scope.
Open Scope nat_scope.
Notation length := List.length.

Section PGrammar.
Variable uniword : N -> bool.     (* which characters beyond ASCII are \w *)
Variable unescape : text -> text. (* chr(int(text[2:], 16)) *)

(* ---------- Pseudocode_Parser.py:477-517  reo_for_rhs_piece_in_pseudocode_grammar ---------- *)
(* Optional parts and choices inside an alternative are written as several alternatives in their order.
   A repetition takes all it can: what follows it never begins with what is repeated. *)
Inductive elem := Lit (t : text) | One (p : N -> bool) | Many (p : N -> bool).
Fixpoint skip_while (p : N -> bool) (t : text) : text := match t with c :: t' => if p c then skip_while p t' else t | [] => [] end.
Fixpoint run (es : list elem) (t : text) : option text :=
  match es with
  | [] => Some t
  | Lit x :: es' => match eat x t with Some t' => run es' t' | None => None end
  | One p :: es' => match t with c :: t' => if p c then run es' t' else None | [] => None end
  | Many p :: es' => run es' (skip_while p t)
  end.
(* a_lead: \b before a word character, so that the character before must not be one;
   a_stop: the lookahead at the end, or \b after a word character: what must not follow *)
Record alt := mkAlt { a_lead : bool; a_body : list elem; a_stop : N -> bool }.
Definition never (_ : N) : bool := false.
Definition plain (es : list elem) : alt := mkAlt false es never.
Definition word_alt (es : list elem) : alt := mkAlt true es (wordc uniword).
Definition letter (c : N) : bool := upper c || lowerc c.
Definition alnum (c : N) : bool := upper c || lowerc c || digit c.
Definition upname (c : N) : bool := upper c || (c =? 95)%N || digit c.
Definition one_of (l : list N) (c : N) : bool := existsb (N.eqb c) l.
Definition tags : list text := [tx "b"; tx "br"; tx "emu-not-ref"; tx "i"; tx "ins"; tx "li"; tx "p"; tx "span"; tx "sub"; tx "sup"; tx "ul"; tx "var"].
Definition groups : list (list alt) := [
  [plain [Lit (tx " ")]];
  [plain [Lit (tx "{_"); One upper; Many upname; Lit (tx "}")]; plain [Lit (tx "{"); One upper; Many upname; Lit (tx "}")]];
  [plain [Lit (tx "{_"); One lowerc; Many (wordc uniword); Lit (tx "}")]; plain [Lit (tx "{"); One lowerc; Many (wordc uniword); Lit (tx "}")]];
  map (fun x => plain [Lit (tx "</" ++ x ++ tx ">")]) tags ++ map (fun x => plain [Lit (tx "<" ++ x ++ tx ">")]) tags;
  [plain [Lit (tx "<span normative-optional>")]; plain [Lit (tx "<ul normative-optional>")]];
  [plain [Lit (tx "*"); One (one_of [43; 45]%N); Lit (tx "0*")]];
  [plain [Lit (tx "*"); One letter; Many letter; Lit (tx "*")]];
  [plain [Lit (tx "*"""); One (fun c => negb (c =? 34)%N); Lit (tx """*")]; plain [Lit (tx "*""""*")]];
  [plain [Lit (tx "`"); One (fun c => negb (c =? 96)%N); Many (fun c => negb (c =? 96)%N); Lit (tx "`")]];
  [plain [Lit (tx "&"); One lowerc; Many lowerc; Lit (tx ";")]];
  [plain [Lit (tx "|"); One letter; Many alnum; Lit (tx "|")]];
  [plain [Lit (tx "_captures_")]];
  [plain [Lit (tx "_endIndex_")]];
  [plain [Lit (tx "_input_")]];
  [plain [Lit (tx "_startIndex_")]];
  [mkAlt true [One digit; Many digit] alnum];
  [plain [One (one_of (tx "-!()*+,./:;=>?{}"))]];
  [plain [One (one_of [32; 171; 187; 215; 960; 8220; 8221; 8734; 8800; 8804; 8805]%N)]];
  [plain [Lit (tx "[")]];
  [plain [Lit (tx "]")]];
  [mkAlt true [Lit (tx "an?")] never];
  [word_alt [Lit (tx "doesn't")]; word_alt [Lit (tx "We've")]];
  [word_alt [Lit (tx "20th")]];
  [word_alt [One letter; Many alnum]];
  [word_alt [Lit (tx "General_Category")]];
  [mkAlt false [Lit (tx "'s")] (wordc uniword)]
].
Definition try_alt (w : bool) (t : text) (a : alt) : option text :=
  if a_lead a && w then None
  else match run (a_body a) t with
       | Some (c :: r) => if a_stop a c then None else Some (c :: r)
       | x => x
       end.
(* .match(rhs, posn): w says whether the character before is a word character; what is left after the piece *)
Definition piece_at (w : bool) (t : text) : option text := first_some (first_some (try_alt w t)) groups.

(* ---------- Pseudocode_Parser.py:418-475  convert_grammar_string_to_productions ---------- *)
Definition last_word (s : text) : bool := match rev s with c :: _ => wordc uniword c | [] => false end.
(* 442-460; sys.exit(1) if no piece is found *)
Fixpoint read_rhs (fuel : nat) (w : bool) (t : text) : res (list text) :=
  match t with
  | [] => Ok []
  | _ => match fuel with
         | 0 => Err OutOfFuel
         | S f => match piece_at w t with
                  | None => Err (SystemExit)
                  | Some r =>
                      let s := firstn (length t - length r) t in
                      do ps <- read_rhs f (last_word s) r ;; Ok ((if is_prefix (tx "\u") s then unescape s else s) :: ps)
                  end
         end
  end.
(* Production(False, lhs, rhs) with its rhs_pieces; lhs None before the first left-hand side *)
Record pprod := mkPProd { pp_lhs : option text; pp_rhs : text; pp_pieces : list text }.
(* 416: a nonterminal between given ends *)
Definition nt_name (m : option text) : bool :=
  match m with Some (c :: x) => (upper c || (c =? 95)%N) && forallb upname x | _ => false end.
Record gstate := mkGState { g_lhs : list text; g_cur : option text; g_prods : list pprod }.
Fixpoint drop_sp (t : text) : text := match t with c :: t' => if (c =? 32)%N then drop_sp t' else t | [] => [] end.
(* 424-466: one line *)
Definition read_line (st : gstate) (line : text) : res gstate :=
  if text_eqb line [] then Ok st
  else if is_prefix (tx "#") (drop_sp line) then Ok st
  else if negb (is_prefix (tx " ") line) then
    do _ <- assert_ (nt_name (between (tx "{") (tx "} :") line)) ;;
    let lhs := firstn (length line - 2) line in
    do _ <- assert_ (negb (tmem_ lhs (g_lhs st))) ;;
    Ok (mkGState (lhs :: g_lhs st) (Some lhs) (g_prods st))
  else
    let rhs := drop_spaces line in
    do ps <- read_rhs (length rhs) false rhs ;;
    do ps' <- (if tmem_ (tx "{EPSILON}") ps then do _ <- assert_ (match ps with [_] => true | _ => false end) ;; Ok [] else Ok ps) ;;
    Ok (mkGState (g_lhs st) (g_cur st) (g_prods st ++ [mkPProd (g_cur st) rhs ps'])).
Fixpoint read_lines (st : gstate) (ls : list text) : res gstate :=
  match ls with [] => Ok st | l :: ls' => do st' <- read_line st l ;; read_lines st' ls' end.
(* 470-473 *)
Definition closed (lhs : list text) (p : pprod) : bool :=
  forallb (fun s => negb (nt_name (between (tx "{") (tx "}") s)) || tmem_ s lhs) (pp_pieces p).
Definition convert_grammar_string_to_productions (g : text) : res (list pprod) :=
  do st <- read_lines (mkGState [] None []) (split_on [10%N] g) ;;
  do _ <- assert_ (forallb (closed (g_lhs st)) (g_prods st)) ;;
  Ok (g_prods st).

End PGrammar.
