(* Model of emu_grammars.py:616-735, 811-921, 1689-1790: what is made of the productions that define the grammar:
   process_defining_emu_grammars, defining_production_check_left and _right, NonterminalInfo, make_grammars, Grammar. *)
From Coq Require Import Ascii String.
From Verif Require Import M_Base M_HTML M_Records.
Open Scope list_scope.
Notation length := List.length.

(* emu_grammars.py:235-330  nodes of a grammar as the reader leaves them; numbers stand for the identities of nodes.
   The sign of a parameter or an argument *)
Inductive sign := Plus | Tilde | Quest | NoSign.
Record arg := mkArg { a_id : nat; a_sign : sign; a_name : text }.
(* an item of a right-hand side: GNT (the nodes GNT/NT and of the arguments, _nt_name, the arguments), RHS_SYMBOL_QM, or any other kind, of which
   only the names in the NT and GNT nodes below it are kept *)
Inductive item := Gnt (nt_id params_id : nat) (name : text) (args : list arg) | Qm (i : item) | Other (names : list text).
(* RHS_LINE with its guard and RHS_ITEMS, RHS_LINE with another body (names below it), BACKTICKED_THING, or any other kind *)
Inductive rhs := Line (guard : list arg) (items : list item) | LineOther (guard : list arg) (names : list text) | Backticked | OtherRhs.
Record prod := mkProd { p_id : nat; p_multi : bool; p_lhs : text; p_params : list text; p_colons : nat; p_rhss : list rhs }.
(* Section.py: of the closest containing section: element_name, section_title, section_num *)
Record sect := mkSect { s_elem : text; s_title : text; s_num : text }.
(* an emu-grammar element: the attribute type, the section, whether the kind of _gnode is BLOCK_PRODUCTIONS, its children *)
Record gram := mkGram { g_type : option text; g_sect : sect; g_block : bool; g_prods : list prod }.

Inductive what :=
| MissingSign                                   (* 837-840 *)
| Undefined                                     (* 846-850: the text has the letters r_nt_name, not the name *)
| ArgsOrder (got want : list text)              (* 857-861 *)
| ArgsCount (nt : text) (want got : list text)  (* 862-865 *)
| Anomalous (lhs arg : text)                    (* 881-884 *)
| NotOnLhs (arg : text).                        (* 890-893 *)
Definition msg := (nat * what)%type.

(* what has been reported when a step ends, and how it ends *)
Definition out (A : Type) := (list msg * res A)%type.
Definition oret {A} (a : A) : out A := ([], Ok a).
Definition obind {A B} (o : out A) (k : A -> out B) : out B :=
  match snd o with Ok a => (fst o ++ fst (k a), snd (k a)) | Err e => (fst o, Err e) end.
Definition say (b : bool) (m : msg) : out unit := (if b then [m] else [], Ok tt).
Definition ofail {A} (e : exn) : out A := ([], Err e).
Definition oassert (b : bool) : out unit := ([], assert_ b).
Fixpoint oeach {B} (f : B -> out unit) (l : list B) : out unit :=
  match l with [] => oret tt | x :: l' => obind (f x) (fun _ => oeach f l') end.
Fixpoint ofold {A B} (f : A -> B -> out A) (a : A) (l : list B) : out A :=
  match l with [] => oret a | x :: l' => obind (f a x) (fun a' => ofold f a' l') end.

Definition tin (s : text) (l : list text) : bool := existsb (text_eqb s) l.
Fixpoint starts (p s : text) : bool :=
  match p, s with [], _ => true | c :: p', d :: s' => (c =? d)%N && starts p' s' | _, _ => false end.

(* emu_grammars.py:914-921  get_grammar_arena_for_section *)
Definition arena_of (s : sect) : text :=
  if text_eqb (s_title s) (tx "Grammar Notation") then tx "E" else if starts (tx "B") (s_num s) then tx "B" else tx "A".

(* emu_grammars.py:671-680  _augments *)
Definition augments_in (s : sect) : bool :=
  if text_eqb (arena_of s) (tx "B")
  then tin (s_title s) [tx "FunctionDeclarations in IfStatement Statement Clauses"; tx "Initializers in ForIn Statement Heads"]
  else false.

(* emu_grammars.py:688-692  the patterns for names; the dollar sign also accepts a newline at the very end *)
Definition upper (c : N) : bool := (65 <=? c)%N && (c <=? 90)%N.
Definition lowerc (c : N) : bool := (97 <=? c)%N && (c <=? 122)%N.
Definition digit (c : N) : bool := (48 <=? c)%N && (c <=? 57)%N.
Definition at_end (s : text) : bool := match s with [] => true | [c] => (c =? 10)%N | _ => false end.
Fixpoint drop_while (f : N -> bool) (s : text) : text := match s with c :: s' => if f c then drop_while f s' else s | [] => [] end.
(* one or more of a class, then the end: the class does not contain the newline, so the longest match decides *)
Definition plus_end (f : N -> bool) (s : text) : bool := match s with c :: s' => f c && at_end (drop_while f s') | [] => false end.
Definition name_ok (title name : text) : bool :=
  if text_eqb title (tx "URI Syntax and Semantics") then
    starts (tx "uri") name &&
    (at_end (skipn 3 name) || match skipn 3 name with c :: s => upper c && plus_end lowerc s | [] => false end)
  else match name with c :: s => upper c && plus_end (fun c => upper c || lowerc c || digit c) s | [] => false end.

(* emu_grammars.py:717-735  NonterminalInfo; productions are denoted by their doc_i *)
Record info := mkInfo { i_colons : nat; i_occs : list (text * nat) }.
Definition infos := list (text * info).
Definition get_def_occ (i : info) (arena : text) : option nat :=
  match tget (i_occs i) arena with
  | Some p => Some p
  | None => tget (i_occs i) (tx "A")
  end.

(* a production with what check_left adds to it; doc_i is its place in the list *)
Record dprod := mkD { d_prod : prod; d_arena : text; d_aug : bool; d_rhss : list rhs }.

(* emu_grammars.py:664-713  defining_production_check_left; the state: the productions so far and info_for_nt_ *)
Definition check_left (s : sect) (st : list dprod * infos) (p : prod) : out (list dprod * infos) :=
  let '(ds, inf) := st in
  obind (oassert (p_multi p)) (fun _ =>
  obind (oassert (tin (s_elem s) [tx "emu-clause"; tx "emu-annex"])) (fun _ =>
  let arena := arena_of s in
  obind (oassert (name_ok (s_title s) (p_lhs p))) (fun _ =>
  obind (match tget inf (p_lhs p) with
         | None => oret (mkInfo (p_colons p) [])
         | Some i =>
             obind (oassert (p_colons p =? i_colons i)) (fun _ =>
             obind (oassert (negb (thas (i_occs i) arena))) (fun _ => oret i))
         end) (fun i =>
  oret (ds ++ [mkD p arena (augments_in s) (p_rhss p)], tset inf (p_lhs p) (mkInfo (i_colons i) (tset (i_occs i) arena (length ds)))))))).

(* emu_grammars.py:628-652  the first loop *)
Definition left_gram (st : list dprod * infos) (g : gram) : out (list dprod * infos) :=
  match g_type g with
  | None => ofail KeyError
  | Some t =>
      obind (oassert (text_eqb t (tx "definition"))) (fun _ =>
      obind (oassert (g_block g)) (fun _ => ofold (check_left (g_sect g)) st (g_prods g)))
  end.

Section Right.
Variable ds : list dprod.        (* the productions, by doc_i *)
Variable inf : infos.            (* info_for_nt_ *)

Definition sign_eqb (a b : sign) : bool :=
  match a, b with Plus, Plus | Tilde, Tilde | Quest, Quest | NoSign, NoSign => true | _, _ => false end.
Fixpoint texts_eqb (a b : list text) : bool :=
  match a, b with [], [] => true | x :: a', y :: b' => text_eqb x y && texts_eqb a' b' | _, _ => false end.

(* emu_grammars.py:869-895: one argument *)
Definition check_arg (p : prod) (guards : list arg) (a : arg) : out unit :=
  if tin (a_name a) (p_params p) then
    say (negb (sign_eqb (a_sign a) Quest || existsb (fun g => sign_eqb (a_sign g) (a_sign a) && text_eqb (a_name g) (a_name a)) guards))
        (a_id a, Anomalous (p_lhs p) (a_name a))
  else say (sign_eqb (a_sign a) Quest) (p_id p, NotOnLhs (a_name a)).

(* emu_grammars.py:826-895: one item *)
Definition check_item (p : prod) (arena : text) (guards : list arg) (i : item) : out unit :=
  match (match i with Qm j => j | _ => i end) with
  | Gnt nt_id params_id name args =>
      obind (oeach (fun a => say (sign_eqb (a_sign a) NoSign) (a_id a, MissingSign)) args) (fun _ =>
      match tget inf name with
      | None => say true (nt_id, Undefined)
      | Some nt_info =>
          match (match get_def_occ nt_info arena with Some k => nth_error ds k | None => None end) with
          | None => ofail AttributeError
          | Some d =>
              let want := p_params (d_prod d) in
              let got := map a_name args in
              obind (if length got =? length want then say (negb (texts_eqb got want)) (params_id, ArgsOrder got want)
                     else say true (params_id, ArgsCount name want got)) (fun _ =>
              oeach (check_arg p guards) args)
          end
      end)
  | _ => oret tt
  end.

(* emu_grammars.py:814-823 *)
Definition check_guard (p : prod) (g : arg) : out unit :=
  obind (oassert (sign_eqb (a_sign g) Plus || sign_eqb (a_sign g) Tilde)) (fun _ => oassert (tin (a_name g) (p_params p))).

(* emu_grammars.py:811-903  defining_production_check_right *)
Definition check_rhs (p : prod) (arena : text) (r : rhs) : out unit :=
  match r with
  | Line guards items => obind (oeach (check_guard p) guards) (fun _ => oeach (check_item p arena guards) items)
  | LineOther guards _ => oeach (check_guard p) guards
  | Backticked => oret tt
  | OtherRhs => ofail AssertionError
  end.
End Right.

Fixpoint set_rhss (ds : list dprod) (k : nat) (r : list rhs) : list dprod :=
  match ds, k with
  | d :: ds', 0 => mkD (d_prod d) (d_arena d) (d_aug d) r :: ds'
  | d :: ds', S k' => d :: set_rhss ds' k' r
  | [], _ => []
  end.

(* emu_grammars.py:654-662  the second loop, for the production with number k *)
Definition right_prod (inf : infos) (ds : list dprod) (k : nat) : out (list dprod) :=
  match nth_error ds k with
  | None => ofail IndexError
  | Some d =>
      obind (oeach (check_rhs ds inf (d_prod d) (d_arena d)) (d_rhss d)) (fun _ =>
      if d_aug d then
        match tget inf (p_lhs (d_prod d)) with
        | None => ofail AttributeError
        | Some i =>
            match (match get_def_occ i (tx "A") with Some b => nth_error ds b | None => None end) with
            | None => ofail AttributeError
            | Some b => oret (set_rhss ds k (d_rhss b ++ d_rhss d))
            end
        end
      else oret ds)
  end.

(* emu_grammars.py:618-662  process_defining_emu_grammars *)
Definition process (gs : list gram) : out (list dprod * infos) :=
  obind (ofold left_gram ([], []) gs) (fun st =>
  let '(ds, inf) := st in
  obind (ofold (right_prod inf) ds (seq 0 (length ds))) (fun ds' => oret (ds', inf))).

(* emu_grammars.py:1689-1714  make_grammars; a grammar: its name (level and arena) and prodn_for_lhs_ *)
Definition level_of (name : text) (i : info) : text :=
  if i_colons i =? 1 then tx "syntactic"
  else if tin name [tx "ReservedWord"; tx "NullLiteral"; tx "BooleanLiteral"] then tx "syntactic" else tx "lexical".
Definition grammar := list (text * dprod).
(* emu_grammars.py:1732-1735  add_prodn *)
Definition add_prodn (g : grammar) (d : dprod) : res grammar :=
  do _ <- assert_ (negb (thas g (p_lhs (d_prod d)))) ;; Ok (tset g (p_lhs (d_prod d)) d).
Fixpoint fill (ds : list dprod) (level arena : text) (l : infos) (g : grammar) : res grammar :=
  match l with
  | [] => Ok g
  | (name, i) :: l' =>
      if text_eqb (level_of name i) level then
        match get_def_occ i arena with
        | None => fill ds level arena l' g
        | Some k => match nth_error ds k with None => Err IndexError | Some d => do g' <- add_prodn g d ;; fill ds level arena l' g' end
        end
      else fill ds level arena l' g
  end.
(* spec.grammar_[(level, arena)]: the entries of the four grammars are made in one loop over the sorted names, each in its own *)
Definition make_grammar (ds : list dprod) (inf : infos) (level arena : text) : res grammar :=
  fill ds level arena (isort (fun a b => text_leb (fst a) (fst b)) inf) [].

(* emu_grammars.py:1747-1780  do_left_right_stuff: goal_symbols and named_terminals *)
Fixpoint item_names (i : item) : list text := match i with Gnt _ _ n _ => [n] | Qm j => item_names j | Other l => l end.
Definition rhs_names (r : rhs) : list text := match r with Line _ items => flat_map item_names items | LineOther _ l => l | _ => [] end.
Fixpoint dedup (l : list text) : list text := match l with [] => [] | x :: l' => if tin x l' then dedup l' else x :: dedup l' end.
Definition lefts (g : grammar) : list text := map fst g.
Definition rights (g : grammar) : list text := dedup (flat_map (fun e => flat_map rhs_names (d_rhss (snd e))) g).
Definition goal_symbols (name : text) (g : grammar) : list text :=
  let l := isort text_leb (filter (fun s => negb (tin s (rights g))) (lefts g)) in
  if text_eqb name (tx "syntactic") then tx "ArrowFormalParameters" :: l else l.
Definition named_terminals (g : grammar) : list text :=
  isort text_leb (filter (fun s => negb (tin s (lefts g))) (rights g)).
