(* Model of what tables of the specification declare about Records (records.py:15-174, 299-327) and of the check of tables by their captions
   (analyze_spec.py:567-620).  A table is taken as analyze_table (M_Tables.v) leaves it. *)
From Coq Require Import Ascii String ZArith.
From Verif Require Import M_Base M_HTML M_Shared M_Records M_Values M_Refs M_PropPath M_Style M_Tables.
Open Scope list_scope.
Open Scope nat_scope.
Notation length := List.length.

(* emu_tables.py:16-116: _caption, the texts of _header_row (which is None if there was none), _data_rows *)
Record table := mkT { t_caption : text; t_header : option (list text); t_rows : list row }.
(* '; '.join(emu_table._header_row.cell_texts) (records.py:19, analyze_spec.py:573) *)
Fixpoint join_semi (l : list text) : text := match l with [] => [] | [x] => x | x :: l' => x ++ tx "; " ++ join_semi l' end.
Definition header_line (t : table) : res text := match t_header t with Some l => Ok (join_semi l) | None => Err AttributeError end.
(* (.+) in a fullmatch: not empty, without newlines *)
Definition dots (t : text) : bool := match t with [] => false | _ => no_newline t end.
Definition ends_with (p t : text) : bool := is_prefix (rev p) (rev t).
Definition one_of (t : text) (l : list text) : bool := existsb (text_eqb t) l.

(* records.py:25-38: the name of the schema in the caption of a table of fields *)
Definition fields_name (caption : text) : res text :=
  do n <- match between [] (tx " Fields") caption with
          | Some m => if dots m then Ok m
                      else match between (tx "Additional Fields of ") (tx "s") caption with
                           | Some m' => if dots m' then Ok m' else Err AssertionError
                           | None => Err AssertionError
                           end
          | None => match between (tx "Additional Fields of ") (tx "s") caption with
                    | Some m' => if dots m' then Ok m' else Err AssertionError
                    | None => Err AssertionError
                    end
          end ;;
  do _ <- assert_ (ends_with (tx " Record") n || ends_with (tx " Event") n || text_eqb n (tx "PrivateElement")) ;;
  Ok n.
(* records.py:64-67: (Additional )?(Abstract )?Methods of (.+ Record)s *)
Definition methods_name (caption : text) : res text :=
  let c1 := match eat (tx "Additional ") caption with Some r => r | None => caption end in
  let c2 := match eat (tx "Abstract ") c1 with Some r => r | None => c1 end in
  match between (tx "Methods of ") (tx " Records") c2 with
  | Some m => if dots m then Ok (m ++ tx " Record") else Err AssertionError
  | None => Err AssertionError
  end.

(* records.py:299-301: re.fullmatch(r'\[\[[A-Z][A-Za-z0-9]+\]\]', name) *)
Definition letter (c : N) : bool := ((65 <=? c) && (c <=? 90) || (97 <=? c) && (c <=? 122))%N.
Definition alnum (c : N) : bool := letter c || ((48 <=? c) && (c <=? 57))%N.
Definition field_name_ok (name : text) : bool :=
  match between (tx "[[") (tx "]]") name with
  | Some (c :: d :: m) => ((65 <=? c) && (c <=? 90))%N && forallb alnum (d :: m)
  | _ => false
  end.

Section Extract.
(* Pseudocode.parse of a cell as field_value_type: the value description, as a number, or None *)
Variable parse_type : hnode -> option nat.
(* Pseudocode.parse of a cell as op_signature: the source texts of the children, or None *)
Variable parse_sig : hnode -> option (list text).

(* l[-2] *)
Definition second_last {A} (l : list A) : res A := match rev l with _ :: x :: _ => Ok x | _ => Err IndexError end.
(* records.py:40-60, for one row; a declaration is one more than the number of its value description, 0 if it has none.
   The two assertions on the shape of the parsed cell hold by the grammar *)
Definition kind_header : text := tx "Field Name; Values of the [[Kind]] field for which it is present; Value; Meaning".
Definition field_row (i : nat) (header : text) (s : st) (r : row) : res st :=
  do f <- (if text_eqb header kind_header
           then match r_texts r with [f; _; _; _] => Ok f | _ => Err ValueError end
           else match r_texts r with [f; _; _] => Ok f | _ => Err ValueError end) ;;
  do c <- second_last (r_cells r) ;;
  match parse_type c with
  | None => Ok s
  | Some v => do _ <- assert_ (field_name_ok f) ;; add_field s i f (S v)
  end.
(* records.py:311-327  MethodDecl.__init__: the name *)
Definition method_name (c : hnode) : res text :=
  match parse_sig c with
  | None => Err AttributeError
  | Some ([_; n; _] | [_; n; _; _]) => Ok n
  | Some _ => Err AssertionError
  end.
(* records.py:71-74, for one row *)
Definition method_row (i : nat) (s : st) (r : row) : res st :=
  do c <- match r_cells r with c :: _ => Ok c | [] => Err IndexError end ;;
  do _ <- match r_texts r with _ :: p :: _ => Ok p | _ => Err IndexError end ;;
  do n <- method_name c ;; add_method s i n 0.
Fixpoint each_row (f : st -> row -> res st) (s : st) (l : list row) : res st :=
  match l with [] => Ok s | r :: l' => do s' <- f s r ;; each_row f s' l' end.
Definition field_headers : list text :=
  [ tx "Field Name; Value Type; Meaning"; tx "Field Name; Value; Meaning"; tx "Field Name; Value; Usage"; kind_header ].
Definition method_headers : list text := [ tx "Method; Purpose; Definitions"; tx "Method; Purpose" ].
(* records.py:17-74: one table *)
Definition table_decls (s : st) (t : table) : res st :=
  do h <- header_line t ;;
  if text_in (tx "Field") (t_caption t) then
    do n <- fields_name (t_caption t) ;;
    do (i, s1) <- ensure enough s n ;;
    do _ <- assert_ (one_of h field_headers) ;;
    each_row (field_row i h) s1 (t_rows t)
  else if text_in (tx "Method") (t_caption t) && text_in (tx "Record") (t_caption t) then
    do n <- methods_name (t_caption t) ;;
    do (i, s1) <- ensure enough s n ;;
    do _ <- assert_ (one_of h method_headers) ;;
    each_row (method_row i) s1 (t_rows t)
  else Ok s.
Fixpoint tables_decls (s : st) (l : list table) : res st :=
  match l with [] => Ok s | t :: l' => do s' <- table_decls s t ;; tables_decls s' l' end.
(* a schema asked for, and fields given to it by the program itself, without a value description *)
Fixpoint add_fields (s : st) (i : nat) (l : list text) : res st :=
  match l with [] => Ok s | f :: l' => do _ <- assert_ (field_name_ok f) ;; do s' <- add_field s i f 0 ;; add_fields s' i l' end.
Definition more (s : st) (n : text) (empty : bool) (fs : list text) : res st :=
  do (i, s1) <- ensure enough s n ;;
  do _ <- (if empty then do x <- get s1 i ;; assert_ (match s_fields x with [] => true | _ => false end) else Ok tt) ;;
  add_fields s1 i fs.
(* records.py:76-173 *)
Definition own_decls (s : st) : res st :=
  do s <- more s (tx "Property Descriptor") false [tx "[[Getter]]"; tx "[[Setter]]"; tx "[[Value]]"; tx "[[Writable]]"; tx "[[Enumerable]]"; tx "[[Configurable]]"] ;;
  do s <- more s (tx "Environment Record") true [tx "[[OuterEnv]]"] ;;
  do s <- more s (tx "Declarative Environment Record") false [tx "[[DisposableResourceStack]]"] ;;
  do s <- more s (tx "Module Environment Record") false [] ;;
  do s <- more s (tx "ResolvedBinding Record") false [tx "[[Module]]"; tx "[[BindingName]]"] ;;
  do s <- more s (tx "CaptureRange") false [tx "[[StartIndex]]"; tx "[[EndIndex]]"] ;;
  do s <- more s (tx "MatchState") false [tx "[[Input]]"; tx "[[EndIndex]]"; tx "[[Captures]]"] ;;
  do s <- more s (tx "Synchronize Event") false [] ;;
  more s (tx "Host-Specific Event") false [].
(* records.py:15-173  extract_record_schemas *)
Definition extract_record_schemas (l : list table) : res st := do s <- tables_decls start l ;; own_decls s.
End Extract.

Section Check.
(* characters that \w matches besides the ASCII ones *)
Variable uniword : N -> bool.
(* analyze_spec.py:575-579: the cells given to Pseudocode.parse *)
Fixpoint column (i : nat) (header : list text) (l : list row) : res (list hnode) :=
  match l with
  | [] => Ok []
  | r :: l' =>
      match nth_error header i, nth_error (r_texts r) i, nth_error (r_cells r) i with
      | Some _, Some _, Some c => do cs <- column i header l' ;; Ok (c :: cs)
      | _, _, _ => Err IndexError
      end
  end.
(* ^Internal Slots of (.+)$ at the beginning: $ also stands before a newline at the end *)
Definition slots_caption (c : text) : bool :=
  match eat (tx "Internal Slots of ") c with
  | Some m => dots m || match rev m with d :: m' => (d =? 10)%N && dots (rev m') | [] => false end
  | None => false
  end.
(* [\w ]+ Interface( (Required|Optional))? Properties *)
Definition word_or_space (c : N) : bool := wordc uniword c || (c =? 32)%N.
Definition words_spaces (t : text) : bool := match t with [] => false | _ => forallb word_or_space t end.
Definition interface_caption (c : text) : bool :=
  existsb (fun e => match between [] e c with Some m => words_spaces m | None => false end)
    [ tx " Interface Properties"; tx " Interface Required Properties"; tx " Interface Optional Properties" ].
(* analyze_spec.py:567-620  check_tables, for one table: the cells that are parsed as value descriptions *)
Definition check_table (t : table) : res (list hnode) :=
  do h <- header_line t ;;
  let c := t_caption t in
  let hd := match t_header t with Some l => l | None => [] end in
  let has x := text_in (tx x) c in
  if has "Field"%string || (has "Method"%string && has "Record"%string) then Ok []
  else if has "Slot"%string then
    if slots_caption c then
      if text_eqb h (tx "Internal Slot; Type; Description") then column 1 hd (t_rows t) else Err AssertionError
    else Err AssertionError
  else if has "Method"%string then
    if has "Internal Methods"%string then
      do _ <- assert_ (one_of c [tx "Essential Internal Methods"; tx "Additional Essential Internal Methods of Function Objects"]) ;;
      do _ <- assert_ (text_eqb h (tx "Internal Method; Signature; Description")) ;; Ok []
    else if text_eqb c (tx "Proxy Handler Methods") then
      do _ <- assert_ (text_eqb h (tx "Internal Method; Handler Method")) ;; Ok []
    else Err AssertionError
  else if has "Properties"%string then
    do _ <- assert_ (interface_caption c) ;;
    do _ <- assert_ (text_eqb h (tx "Property; Value; Requirements")) ;;
    column 1 hd (t_rows t)
  else if text_eqb c (tx "Attributes of an Object property") then
    do _ <- assert_ (text_eqb h (tx "Attribute Name; Types of property for which it is present; Value Domain; Default Value; Description")) ;;
    column 2 hd (t_rows t)
  else Ok [].
End Check.
