(* Model of the analysis of tables: emu_tables.py:16-134, and the choice of a row of one: pseudocode_semantics.py:3505-3516. *)
From Coq Require Import Ascii String ZArith.
From Verif Require Import M_Base M_HTML M_Shared M_Records M_Indent M_Refs M_Style.
Open Scope list_scope.
Open Scope nat_scope.
Notation length := List.length.

(* HTML.py: an element with its attributes, inner_source_text and children; or white space *)
Inductive hnode := El (name : text) (attrs : list (text * text)) (inner : text) (children : list hnode) | White.
Definition h_name (n : hnode) : text := match n with El x _ _ _ => x | White => tx "#LITERAL" end.
Definition h_attrs (n : hnode) : list (text * text) := match n with El _ a _ _ => a | White => [] end.
Definition h_inner (n : hnode) : text := match n with El _ _ i _ => i | White => [] end.
Definition h_children (n : hnode) : list hnode := match n with El _ _ _ c => c | White => [] end.
Definition named (x : text) (n : hnode) : bool := text_eqb (h_name n) x.
(* HTML.py:235-245  each_descendant_named *)
Fixpoint each_named (x : text) (n : hnode) : list hnode :=
  (if named x n then [n] else []) ++ match n with El _ _ _ c => flat_map (each_named x) c | White => [] end.

(* str.strip *)
Definition strip (t : text) : text := rev (drop_spaces (rev (drop_spaces t))).

(* emu_tables.py:118-126  quasi_ecmarkdown *)
(* 121-122: re.fullmatch(r'`[^`]*`', text) *)
Definition unquote (t : text) : text :=
  match t with
  | c :: t' =>
      match rev t' with
      | d :: m => if (c =? 96)%N && (d =? 96)%N && forallb (fun x => negb (x =? 96)%N) m then rev m else t
      | [] => t
      end
  | [] => t
  end.
(* 123: re.sub(r'\\(.)', r'\1', text), where . is not a newline *)
Fixpoint unescape (t : text) : text :=
  match t with
  | c :: t' =>
      if (c =? 92)%N then
        match t' with
        | d :: t'' => if (d =? 10)%N then c :: d :: unescape t'' else d :: unescape t''
        | [] => [c]
        end
      else c :: unescape t'
  | [] => []
  end.
Definition quasi_ecmarkdown (t : text) : text :=
  str_replace (tx "&gt;") (tx ">") (str_replace (tx "&lt;") (tx "<") (unescape (unquote t))).

(* 24-33: e_caption *)
Definition e_caption (t : hnode) : res (option text) :=
  match filter (named (tx "emu-caption")) (h_children t) with
  | [] => Ok None
  | [c] => Ok (Some (strip (h_inner c)))
  | _ => Err AssertionError
  end.
(* whether a value is true, for Python *)
Definition truthy (t : option text) : bool := match t with Some (_ :: _) => true | _ => false end.
Definition the (t : option text) : text := match t with Some x => x | None => [] end.
(* 35-49: caption *)
Definition caption_of (t : hnode) : res text :=
  let a := tget (h_attrs t) (tx "caption") in
  do e <- e_caption t ;;
  match tget (h_attrs t) (tx "type") with
  | Some ty =>
      if text_eqb ty (tx "abstract methods") then
        do _ <- assert_ (match e with None => true | Some _ => false end) ;;
        if truthy a then Ok (the a)
        else match tget (h_attrs t) (tx "of") with Some o => Ok (tx "Abstract Methods of " ++ o) | None => Err KeyError end
      else Err AssertionError
  | None =>
      if truthy a && negb (truthy e) then Ok (the a)
      else if truthy e && negb (truthy a) then Ok (the e)
      else Err AssertionError
  end.

Section Rows.
(* int *)
Variable int_of : text -> res Z.
(* 129-134  TableRow: the cells, their texts, as_dict *)
Record row := mkRow { r_cells : list hnode; r_texts : list text; r_dict : option (list (text * text)) }.
(* 66-73: cell_nodes *)
Fixpoint cells_of (l : list hnode) : res (list hnode) :=
  match l with
  | [] => Ok []
  | White :: l' => cells_of l'
  | c :: l' =>
      if named (tx "th") c || named (tx "td") c then do cs <- cells_of l' ;; Ok (c :: cs) else Err AssertionError
  end.
(* 77-86: raw_cell_texts and cooked_cell_texts; a list times a negative number is empty *)
Fixpoint texts_of (caption : text) (l : list hnode) : res (list text * list text) :=
  match l with
  | [] => Ok ([], [])
  | c :: l' =>
      let raw := strip (h_inner c) in
      do n <- (match tget (h_attrs c) (tx "colspan") with Some s => int_of s | None => Ok 1%Z end) ;;
      do _ <- (if (n =? 1)%Z then Ok tt else assert_ (text_eqb caption (tx "Import Forms Mappings to ImportEntry Records"))) ;;
      do r <- texts_of caption l' ;;
      Ok (repeat raw (Z.to_nat n) ++ fst r, repeat (quasi_ecmarkdown raw) (Z.to_nat n) ++ snd r)
  end.
(* dict(zip(keys, values)) *)
Definition dict_zip (ks vs : list text) : list (text * text) := fold_left (fun d p => tset d (fst p) (snd p)) (combine ks vs) [].
(* 63-116: one round of the loop; the state is _header_row and _data_rows *)
Definition add_row (caption : text) (st : option row * list row) (tr : hnode) : res (option row * list row) :=
  do _ <- assert_ (match h_attrs tr with [] => true | [(k, _)] => text_eqb k (tx "id") | _ => false end) ;;
  do cells <- cells_of (h_children tr) ;;
  do ts <- texts_of caption cells ;;
  if forallb (named (tx "th")) cells then
    do _ <- assert_ (match fst st with None => true | Some _ => false end) ;;
    do _ <- assert_ (match snd st with [] => true | _ => false end) ;;
    Ok (Some (mkRow cells (fst ts) None), snd st)
  else
    match fst st with
    | None => Err AttributeError
    | Some h =>
        if length (snd ts) =? length (r_texts h) then
          Ok (fst st, snd st ++ [mkRow cells (fst ts) (Some (dict_zip (r_texts h) (snd ts)))])
        else if text_eqb caption (tx "Numeric Type Operations") then Ok (fst st, snd st ++ [mkRow cells (fst ts) None])
        else Err AssertionError
    end.
Fixpoint add_rows (caption : text) (st : option row * list row) (l : list hnode) : res (option row * list row) :=
  match l with [] => Ok st | tr :: l' => do st' <- add_row caption st tr ;; add_rows caption st' l' end.
(* 16-116  analyze_table: what is said, and _caption, _header_row, _data_rows *)
Definition analyze_table (t : hnode) : outm text (text * option row * list row) :=
  mbind (massert (named (tx "emu-table") t)) (fun _ =>
  match caption_of t with
  | Err e => mfail e
  | Ok caption =>
      mbind (mtell (if thas (h_attrs t) (tx "id") then [] else [tx "no id attribute for table with caption """ ++ caption ++ tx """"])) (fun _ =>
      match add_rows caption (None, []) (each_named (tx "tr") t) with
      | Err e => mfail e
      | Ok (h, ds) => mret (caption, h, ds)
      end)
  end).
(* pseudocode_semantics.py:3505-3516  emu_table_get_unique_row_satisfying; a predicate may fail *)
Fixpoint selected (p : row -> res bool) (l : list row) : res (list row) :=
  match l with [] => Ok [] | r :: l' => do b <- p r ;; do rs <- selected p l' ;; Ok (if b then r :: rs else rs) end.
Definition unique_row (p : row -> res bool) (l : list row) : res row :=
  do rs <- selected p l ;; match rs with [r] => Ok r | _ => Err AssertionError end.
(* pseudocode_semantics.py:3954: lambda row: row.as_dict[k] == v; as_dict may be None *)
Definition column_is (k v : text) (r : row) : res bool :=
  match r_dict r with
  | None => Err TypeError
  | Some d => match tget d k with Some x => Ok (text_eqb x v) | None => Err KeyError end
  end.
End Rows.
