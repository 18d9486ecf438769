(* Model of the tables of well-known intrinsics and of what is checked against them (intrinsics.py:138-173, 795-822, Section.py:2378-2407, analyze_spec.py:623-642). *)
From Coq Require Import Ascii String.
From Verif Require Import M_Base M_HTML M_Shared M_Indent M_Defs M_Refs M_Style M_Validate M_PropPath M_Tables M_Steps M_Titles.
Open Scope list_scope.
Open Scope nat_scope.
Notation length := List.length.

Section Wki.
Variable uniword : N -> bool.   (* which characters beyond ASCII are \w *)

(* ---------- intrinsics.py:143-173  each_row_in_wki_table ---------- *)
(* 155, 162: \w+ between the ends *)
Definition word_between (a b t : text) : option text := and_then (between a b t) (fun w => if words uniword w then Some w else None).
(* the part of a text before its last quote, and the part after it *)
Fixpoint to_quote (r : text) : text * option text := match r with [] => ([], None) | c :: r' => if (c =? 34)%N then ([], Some r') else let '(a, x) := to_quote r' in (c :: a, x) end.
(* 168: The, something, and a cross-reference in parentheses, as a whole *)
Definition the_phrase (t : text) : option text :=
  and_then (between (tx "The ") (tx """></emu-xref>)") t) (fun u =>
  match to_quote (rev u) with
  | (_ :: _, Some r) => and_then (between [] (tx " (<emu-xref href=") (rev r)) (fun m => if negb (text_eqb m []) && no_newline m then Some m else None)
  | _ => None
  end).
(* 166-171 *)
Definition phrase_of (assoc : text) : res text :=
  if is_prefix (tx "A function object that ") assoc || is_prefix (tx "An object that ") assoc then Ok []
  else match the_phrase assoc with Some m => Ok (tx "the " ++ m) | None => Err AssertionError end.
(* well_known_intrinsics and global_property_names *)
Record wki := mkWki { w_names : list text; w_globals : list text }.
Record wrow := mkWRow { wr_percent : text; wr_global : text; wr_phrase : text }.
(* 151-173: one row *)
Definition wki_row (st : wki) (cells : list text) : res (wki * wrow) :=
  match cells with
  | [p; g; a] =>
    match word_between (tx "%") (tx "%") p with
    | None => Err AssertionError
    | Some w =>
      do _ <- assert_ (negb (tmem_ p (w_names st))) ;;
      let names := w_names st ++ [p] in
      do globals <- (if text_eqb g [] then Ok (w_globals st)
                     else match word_between (tx "*""") (tx """*") g with
                          | None => Err AssertionError
                          | Some v => do _ <- assert_ (text_eqb v w) ;;
                                      do _ <- assert_ (negb (tmem_ g (w_globals st))) ;;
                                      Ok (w_globals st ++ [v])
                          end) ;;
      do ph <- phrase_of a ;;
      Ok (mkWki names globals, mkWRow p g ph)
    end
  | _ => Err ValueError
  end.
(* what is yielded, and the state or the error *)
Fixpoint wki_rows (st : wki) (rows : list (list text)) : outm wrow wki :=
  match rows with
  | [] => mret st
  | r :: rows' => match wki_row st r with Err e => mfail e | Ok (st', x) => mbind (mtell [x]) (fun _ => wki_rows st' rows') end
  end.
Record wtable := mkWTable { wt_caption : text; wt_header : list text; wt_rows : list (list text) }.
Definition each_row_in_wki_table (st : wki) (t : wtable) : outm wrow wki :=
  mbind (massert (existsb (text_eqb (wt_caption t)) [tx "Well-Known Intrinsic Objects"; tx "Additional Well-known Intrinsic Objects"])) (fun _ =>
  mbind (massert (if list_eq_dec (list_eq_dec N.eq_dec) (wt_header t) [tx "Intrinsic Name"; tx "Global Name"; tx "ECMAScript Language Association"] then true else false)) (fun _ =>
  wki_rows st (wt_rows t))).

(* ---------- Section.py:2378-2407  extract_intrinsic_info_from_WKI_section ---------- *)
(* the calls of section.put_fact, and what is appended to non_global_wkis *)
Inductive wfact := Exists (p : text) | Aka (p x : text) | GlobalProp (key value : text) | NonGlobal (p : text).
(* 2404: <emu-not-ref>(constructors?)</emu-not-ref> by its inside *)
Definition not_ref (t : text) : option (text * text) :=
  and_then (eat (tx "<emu-not-ref>constructor") t) (fun r =>
  match eat (tx "</emu-not-ref>") r with
  | Some r' => Some (tx "constructor", r')
  | None => and_then (eat (tx "s</emu-not-ref>") r) (fun r' => Some (tx "constructors", r'))
  end).
Fixpoint sub_not_ref (skip : nat) (t : text) : text :=
  match t with
  | [] => []
  | c :: t' =>
    match skip with
    | S k => sub_not_ref k t'
    | 0 => match not_ref t with
           | Some (x, r) => x ++ sub_not_ref (length t' - length r) t'
           | None => c :: sub_not_ref 0 t'
           end
    end
  end.
Definition row_facts (r : wrow) : res (list wfact) :=
  do g <- (match wr_global r with
           | [] => Ok [NonGlobal (wr_percent r)]
           | _ => let g := destarquote (wr_global r) in
                  do k <- pystr_to_spec_String_literal g ;;
                  Ok [Aka (wr_percent r) g; GlobalProp k (wr_percent r)]
           end) ;;
  Ok ([Exists (wr_percent r)] ++ g ++ match wr_phrase r with [] => [] | p => [Aka (wr_percent r) (sub_not_ref 0 (detick p))] end).

(* ---------- intrinsics.py:797-822  check_references_to_intrinsics ---------- *)
(* 807: %[^% ]+% at a place, by its inside and what is left *)
Fixpoint take_ref (t : text) : option (text * text) :=
  match t with
  | [] => None
  | c :: t' => if (c =? 37)%N then Some ([], t') else if (c =? 32)%N then None else and_then (take_ref t') (fun x => Some (c :: fst x, snd x))
  end.
Definition ref_here (t : text) : option (text * text) :=
  match t with
  | c :: t' => if (c =? 37)%N then match take_ref t' with Some ((_ :: _) as x, r) => Some (x, r) | _ => None end else None
  | [] => None
  end.
Fixpoint find_refs (pos skip : nat) (t : text) : list (nat * text) :=
  match t with
  | [] => []
  | c :: t' =>
    match skip with
    | S k => find_refs (S pos) k t'
    | 0 => match ref_here t with
           | Some (x, r) => (pos, tx "%" ++ x ++ tx "%") :: find_refs (S pos) (length t' - length r) t'
           | None => find_refs (S pos) 0 t'
           end
    end
  end.
(* 817: re.sub of \.[^%]+ by nothing *)
Fixpoint sub_dots (del : bool) (t : text) : text :=
  match t with
  | [] => []
  | c :: t' => if del && negb (c =? 37)%N then sub_dots true t'
               else if (c =? 46)%N && match t' with d :: _ => negb (d =? 37)%N | [] => false end then sub_dots true t'
               else c :: sub_dots false t'
  end.
Definition exempt : list text := [tx "%name%"; tx "%name.a.b%"; tx "%_NativeError_%"; tx "%_TypedArray_%"].
Definition ref_msgs (names : list text) (m : nat * text) : list (nat * text) :=
  if tmem_ (snd m) exempt then []
  else let base := sub_dots false (snd m) in
       if tmem_ base names then [] else [(fst m, tx "Intrinsic doesn't exist: " ++ base)].
(* the literal nodes by their start and end; messages with their position *)
Definition check_references_to_intrinsics (spec_text : text) (names : list text) (lits : list (nat * nat)) : list (nat * text) :=
  flat_map (fun n => flat_map (ref_msgs names) (find_refs (fst n) 0 (slice (fst n) (snd n) spec_text))) lits.

(* ---------- analyze_spec.py:623-642  check_globals ---------- *)
Record gsection := mkGSection { gs_kind : text; gs_title : text; gs_parent : text }.
(* 631: (\w+)( \(.*\))? as a whole *)
Definition prop_name (t : text) : option text :=
  match take_word uniword t with
  | [] => None
  | w => let r := skipn (length w) t in
         if text_eqb r [] then Some w else match between (tx " (") (tx ")") r with Some m => if no_newline m then Some w else None | None => None end
  end.
Fixpoint global_names (ss : list gsection) : res (list text) :=
  match ss with
  | [] => Ok []
  | s :: ss' =>
      if has_sub (tx "_property") (gs_kind s) then
        match prop_name (gs_title s) with
        | None => Err AssertionError
        | Some w => do l <- global_names ss' ;; Ok (if text_eqb (gs_parent s) (tx "Value Properties of the Global Object") then l else w :: l)
        end
      else global_names ss'
  end.
Definition minus (a b : list text) : list text := filter (fun x => negb (tmem_ x b)) a.
(* the lines written to stderr after the first; None if there is no sec-global-object *)
Definition check_globals (sgo : option (list gsection)) (globals : list text) : res (list text) :=
  match sgo with
  | None => Err KeyError
  | Some ss => do names <- global_names ss ;;
               Ok (map (fun n => tx "> In 'The Global Object' but not in WKI: " ++ n) (sorted_set (minus names globals)) ++
                   map (fun n => tx "> In WKI but not in 'The Global Object': " ++ n) (sorted_set (minus globals names)))
  end.

End Wki.
