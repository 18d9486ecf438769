(* Model of the registry of algorithms (algos.py:86-136, 148-160, 182-283) and of the construction of their headers (Section.py:3712-3744). *)
From Coq Require Import Ascii String.
From Verif Require Import M_Base M_HTML M_Shared M_Records M_Refs M_Style M_PropPath.
Open Scope list_scope.
Open Scope nat_scope.
Notation length := List.length.

(* algos.py:140-144  AlgParam *)
Record rparam := mkRP { rp_name : text; rp_punct : text; rp_nature : text }.
(* a header before finish_initialization (Section.py:3712-3737, after the comparison with the preamble): which one it is, species, name, params (None: not set), description_paras *)
Record hdr := mkHdr { r_id : nat; r_species : text; r_name : text; r_params : option (list rparam); r_paras : list text }.
(* a finished header *)
Record fhdr := mkFhdr { f_id : nat; f_species : text; f_markup : text; f_name : text; f_params : list rparam; f_desc : text }.
(* algos.py:106-116  Alg: name, bif_or_op, species, headers (the other attributes are set later) *)
Record ralg := mkRalg { l_name : text; l_kind : text; l_species : text; l_headers : list fhdr }.
(* algos.py:88  spec.alg_info_ *)
Record registry := mkReg { g_bif : list (text * ralg); g_op : list (text * ralg) }.
Definition new_registry : registry := mkReg [] [].

(* algos.py:93 *)
Definition kind_of (species : text) : text := if is_prefix (tx "bif:") species then tx "bif" else tx "op".
Fixpoint look (n : text) (d : list (text * ralg)) : option ralg :=
  match d with [] => None | (m, a) :: d' => if text_eqb m n then Some a else look n d' end.
(* 232: parent_alg.headers.append *)
Definition add_header (n : text) (fs : list fhdr) (d : list (text * ralg)) : list (text * ralg) :=
  map (fun e => if text_eqb (fst e) n then (fst e, mkRalg (l_name (snd e)) (l_kind (snd e)) (l_species (snd e)) (l_headers (snd e) ++ fs)) else e) d.
(* 92-104  ensure_alg, and then the headers fs are appended to what it returns *)
Definition ensure_in (species n : text) (fs : list fhdr) (d : list (text * ralg)) : res (list (text * ralg)) :=
  match look n d with
  | Some a => do _ <- assert_ (text_eqb (l_name a) n) ;; do _ <- assert_ (text_eqb (l_species a) species) ;; Ok (add_header n fs d)
  | None => Ok (d ++ [(n, mkRalg n (kind_of species) species fs)])
  end.
Definition ensure_alg (species n : text) (fs : list fhdr) (r : registry) : res registry :=
  if is_prefix (tx "bif:") species then do d <- ensure_in species n fs (g_bif r) ;; Ok (mkReg d (g_op r))
  else do d <- ensure_in species n fs (g_op r) ;; Ok (mkReg (g_bif r) d).

(* characters up to the first angle bracket *)
Fixpoint plain (t : text) : text * text :=
  match t with c :: t' => if (c =? 60)%N || (c =? 62)%N then ([], t) else let '(a, r) := plain t' in (c :: a, r) | [] => ([], []) end.
(* 193-196: <dfn [^<>]+>([^<>]+)</dfn> *)
Definition dfn_name (t : text) : option text :=
  match eat (tx "<dfn ") t with
  | None => None
  | Some t1 =>
      match plain t1 with
      | ([], _) => None
      | (_, t2) =>
          match eat (tx ">") t2 with
          | None => None
          | Some t3 => match plain t3 with
                       | ([], _) => None
                       | (m, t4) => if text_eqb t4 (tx "</dfn>") then Some m else None
                       end
          end
      end
  end.
Definition bare_name (t : text) : res text :=
  if is_prefix (tx "<") t then match dfn_name t with Some m => Ok m | None => Err AssertionError end else Ok t.
(* 202-206 *)
Definition rest_ok (ps : list rparam) : bool := length (filter (fun p => text_eqb (rp_punct p) (tx "...")) ps) <=? 1.
(* 208-214 *)
Definition give_nature (p : rparam) : rparam :=
  if text_eqb (rp_nature p) (tx "unknown")
  then mkRP (rp_name p) (rp_punct p) (if text_eqb (rp_punct p) (tx "...") then tx "a List of ECMAScript language values" else tx "an ECMAScript language value")
  else p.
(* 219-226 *)
Fixpoint drop_first (ps : list text) (t : text) : text := match ps with [] => t | p :: ps' => match eat p t with Some t' => t' | None => drop_first ps' t end end.
Fixpoint join_sp (ls : list text) : text := match ls with [] => [] | [l] => l | l :: ls' => l ++ [32%N] ++ join_sp ls' end.
Definition description (paras : list text) : text :=
  let d := join_sp paras in
  let d := drop_first [tx "!OP "; tx "!FUNC "; tx "!CM "] d in
  let d := drop_first [tx "It "; tx "This operation "; tx "The job "] d in
  str_replace (tx "!FUNC") (tx "This function") (str_replace (tx "!OP") (tx "This operation") d).
(* 190-232  finish_initialization *)
Definition finish (h : hdr) : res fhdr :=
  do n <- bare_name (r_name h) ;;
  match r_params h with
  | None => Err AssertionError
  | Some ps =>
      do _ <- assert_ (rest_ok ps) ;;
      Ok (mkFhdr (r_id h) (r_species h) (r_name h) n (if is_prefix (tx "bif:") (r_species h) then map give_nature ps else ps) (description (r_paras h)))
  end.
Definition make (h : hdr) (r : registry) : res registry := do f <- finish h ;; ensure_alg (f_species f) (f_name f) [f] r.

(* what is done to the registry: ensure_alg alone, or the making of a header *)
Inductive action := Ensure (species name : text) | Make (h : hdr).
Definition act (a : action) (r : registry) : res registry := match a with Ensure s n => ensure_alg s n [] r | Make h => make h r end.
Fixpoint run (l : list action) (r : registry) : res registry := match l with [] => Ok r | a :: l' => do r' <- act a r ;; run l' r' end.

(* 241-280  write_header_info; defns: the parents of the definitions that a header has (u_defns); the lines are kept apart *)
Section Report.
Variable defns : nat -> list nat.
Inductive hline := Kind (k : text) | AlgLine (name species : text) (n : nat) | HeaderLine (id n : nat).
Fixpoint header_lines (n s : text) (fs : list fhdr) : res (list hline) :=
  match fs with
  | [] => Ok []
  | f :: fs' =>
      do _ <- assert_ (text_eqb (f_name f) n) ;; do _ <- assert_ (text_eqb (f_species f) s) ;;
      do _ <- assert_ (forallb (fun p => p =? f_id f) (defns (f_id f))) ;;
      do ls <- header_lines n s fs' ;; Ok (HeaderLine (f_id f) (length (defns (f_id f))) :: ls)
  end.
(* 271: one after the other *)
Definition defns_via_headers (fs : list fhdr) : nat := fold_left (fun n f => n + length (defns (f_id f))) fs 0.
(* 130-135  all_definitions *)
Definition all_definitions (a : ralg) : list nat := flat_map (fun f => defns (f_id f)) (l_headers a).
Fixpoint alg_lines (k : text) (d : list (text * ralg)) : res (list hline) :=
  match d with
  | [] => Ok []
  | (n, a) :: d' =>
      do _ <- assert_ (text_eqb (l_name a) n) ;; do _ <- assert_ (text_eqb (l_kind a) k) ;;
      do hs <- header_lines n (l_species a) (l_headers a) ;;
      do _ <- assert_ (defns_via_headers (l_headers a) =? length (all_definitions a)) ;;
      do ls <- alg_lines k d' ;; Ok (AlgLine (l_name a) (l_species a) (length (l_headers a)) :: hs ++ ls)
  end.
Definition by_key (d : list (text * ralg)) : list (text * ralg) := isort (fun x y => text_leb (fst x) (fst y)) d.
Definition write_header_info (r : registry) : res (list hline) :=
  do a <- alg_lines (tx "op") (by_key (g_op r)) ;;
  do b <- alg_lines (tx "bif") (by_key (g_bif r)) ;;
  Ok (Kind (tx "op") :: a ++ Kind (tx "bif") :: b).
End Report.
