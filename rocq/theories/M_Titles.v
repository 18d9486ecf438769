(* Model of the check of section titles (Section.py:1697-1737) and of the listing of parameters in a title (Section.py:1490-1526). *)
From Coq Require Import Ascii String.
From Verif Require Import M_Base M_HTML M_Shared M_Indent M_Refs M_Style M_PropPath M_Tables.
Open Scope list_scope.
Open Scope nat_scope.
Notation length := List.length.

Section Titles.
Variable uniword : N -> bool.   (* which characters beyond ASCII are \w *)

Fixpoint take_word (t : text) : text := match t with c :: t' => if wordc uniword c then c :: take_word t' else [] | [] => [] end.

(* ---------- Section.py:1490-1526  convert_parameter_listing_to_params ---------- *)
(* AlgParam(name, punct, 'unknown') *)
Record aparam := mkAParam { ap_name : text; ap_punct : text; ap_nature : text }.
(* the last underscore of a word, with something before it *)
Fixpoint drop_to (c : N) (t : text) : text := match t with x :: t' => if (x =? c)%N then t else drop_to c t' | [] => [] end.
Definition up_to_last (w : text) : option text := let r := drop_to 95 (rev w) in if 2 <=? length r then Some (rev r) else None.
(* 1503: _\w+_ at the start, and the rest *)
Definition name_at (t : text) : option (text * text) :=
  match t with
  | c :: u => if (c =? 95)%N then match up_to_last (take_word u) with Some n => Some (c :: n, skipn (length n) u) | None => None end else None
  | [] => None
  end.
(* 1503: the rest of the line and $, which may come before a last newline *)
Definition to_end (t : text) : option text :=
  if no_newline t then Some t
  else match rev t with c :: r => if (c =? 10)%N && no_newline r then Some (rev r) else None | [] => None end.
(* 1519: any number of closing brackets, each after a space *)
Fixpoint closers (t : text) : bool :=
  match t with [] => true | c :: t' => match t' with d :: t'' => (c =? 32)%N && (d =? 93)%N && closers t'' | [] => false end end.
(* 1497-1524: one parameter; the state is subsequent_are_optional *)
Definition param_one (st : bool * list aparam) (s : text) : res (bool * list aparam) :=
  let '(opt, ps) := st in
  let '(opt, s) := match eat (tx "[ ") s with Some s' => (true, s') | None => (opt, s) end in
  let '(dots, s) := match eat (tx "...") s with Some s' => (true, s') | None => (false, s) end in
  match name_at s with
  | None => Err AssertionError
  | Some (name, rest) =>
    match to_end rest with
    | None => Err AssertionError
    | Some suffix =>
      do _ <- assert_ (negb (dots && opt)) ;;
      let p := mkAParam name (if dots then tx "..." else if opt then tx "[]" else tx "") (tx "unknown") in
      if closers suffix then Ok (opt, ps ++ [p])
      else if text_eqb suffix (tx " [ ") then Ok (true, ps ++ [p])
      else Err AssertionError
    end
  end.
Fixpoint param_all (st : bool * list aparam) (l : list text) : res (bool * list aparam) :=
  match l with [] => Ok st | s :: l' => do st' <- param_one st s ;; param_all st' l' end.
Definition convert_parameter_listing_to_params (listing : text) : res (list aparam) :=
  let t := strip listing in
  if text_eqb t [] then Ok []
  else do st <- param_all (false, []) (split_on (tx ", ") t) ;; Ok (snd st).

(* ---------- Section.py:1697-1737  check_section_title ---------- *)
(* re.search: the first place where something is found *)
Fixpoint find_at {A} (f : text -> option A) (i : nat) (t : text) : option (nat * A) :=
  match f t with
  | Some a => Some (i, a)
  | None => match t with [] => None | _ :: t' => find_at f (S i) t' end
  end.
Definition small : list text := [tx "an"; tx "and"; tx "for"; tx "in"; tx "of"; tx "on"; tx "the"; tx "to"; tx "with"].
(* 1703: a space and a word in lower case, whose beginning is none of these *)
Definition word_at (t : text) : option text :=
  match t with
  | s :: (c :: v) as u =>
      if (s =? 32)%N && negb (existsb (fun w => is_prefix w u) small) && ((97 <=? c)%N && (c <=? 122)%N)
      then match take_word v with [] => None | w => Some (c :: w) end else None
  | _ => None
  end.
Fixpoint drop_sp (t : text) : text := match t with c :: t' => if (c =? 32)%N then drop_sp t' else t | [] => [] end.
(* 1711: [ and @ with spaces between *)
Definition at_sign (t : text) : option unit :=
  match t with
  | c :: u => if (c =? 91)%N then match drop_sp u with d :: _ => if (d =? 64)%N then Some tt else None | [] => None end else None
  | [] => None
  end.
(* 1713: what may follow: a space, or the end (before a last newline, too) *)
Definition sp_or_end (t : text) : bool := match t with [] => true | [c] => (c =? 32)%N || (c =? 10)%N | c :: _ => (c =? 32)%N end.
Definition symbol_ref (t : text) : option unit :=
  and_then (eat (tx "[ %Symbol.") t) (fun r => and_then (scan_name uniword r) (fun r => and_then (eat (tx "% ]") r) (fun r => if sp_or_end r then Some tt else None))).
Definition spaced_ref (t : text) : option unit := and_then (eat (tx " ") t) symbol_ref.
Definition some {A} (x : option A) : bool := match x with Some _ => true | None => false end.
(* 1725: what may follow the parenthesis *)
Definition inside (t : text) : bool :=
  text_eqb t (tx " )") || match between (tx " ") (tx " )") t with Some m => negb (text_eqb m []) && no_newline m | None => false end.
Definition inside_method (t : text) : bool :=
  inside t || match between [] (tx " Concrete Method") t with Some m => inside m | None => false end.
Definition after_paren (t : text) : bool :=
  inside_method t || match between [] [10%N] t with Some m => inside_method m | None => false end.
Definition paren_at (t : text) : option unit := and_then (eat (tx " (") t) (fun r => if after_paren r then Some tt else None).
Definition count (c : N) (t : text) : nat := length (filter (N.eqb c) t).
(* messages with their offset in the title: 1702-1709 *)
Definition check_words (parent title : text) : outm (nat * text) unit :=
  if text_eqb parent (tx "Terms and Definitions") then mret tt
  else match find_at word_at 0 title with
       | Some (i, w) => mtell [(i + 1, tx "title word '" ++ w ++ tx "' should be capitalized?")]
       | None => mret tt
       end.
(* 1711-1716 *)
Definition check_symbol (title : text) : outm (nat * text) unit :=
  match find_at at_sign 0 title with
  | Some (i, _) =>
      if some (symbol_ref title) || some (find_at spaced_ref 0 title) then mret tt
      else mtell [(i, tx "Title's reference to well-known symbol does not conform to expected pattern")]
  | None => mret tt
  end.
(* 1722-1737 *)
Definition check_parens (title : text) : outm (nat * text) unit :=
  match find_at (eat (tx "(")) 0 title with
  | Some (i, _) =>
      if some (find_at paren_at 0 title) then mret tt
      else if text_eqb title (tx "RegExp (Regular Expression) Objects") then mret tt
      else mtell [(i, tx "Something odd here wrt parens + spaces")]
  | None => mret tt
  end.
(* Section.py:1697 check_section_title *)
Definition check_section_title (parent title : text) : outm (nat * text) unit :=
  mbind (check_words parent title) (fun _ =>
  mbind (check_symbol title) (fun _ =>
  mbind (massert (count 40 title <=? 1)) (fun _ =>
  mbind (massert (count 41 title <=? 1)) (fun _ =>
  check_parens title)))).

End Titles.
