(* Model of emu_grammars.py:1359-1447, 1659-1711: checks of the uses of the grammar: check_order_of_RHSs_within_each_SDO_clause, check_emu_prodrefs,
   check_nonterminal_refs. *)
From Coq Require Import Ascii String.
From Verif Require Import M_Base M_HTML M_Records M_Defs.
Open Scope list_scope.
Notation length := List.length.

(* messages so far, and how a step ends; the messages carry the number of a node or a position in the text *)
Definition outm (M A : Type) := (list M * res A)%type.
Definition mret {M A} (a : A) : outm M A := ([], Ok a).
Definition mfail {M A} (e : exn) : outm M A := ([], Err e).
Definition mbind {M A B} (o : outm M A) (k : A -> outm M B) : outm M B :=
  match snd o with Ok a => (fst o ++ fst (k a), snd (k a)) | Err e => (fst o, Err e) end.
Definition mtell {M} (l : list M) : outm M unit := (l, Ok tt).
Definition massert {M} (b : bool) : outm M unit := ([], assert_ b).
Fixpoint mfold {M A B} (f : A -> B -> outm M A) (a : A) (l : list B) : outm M A :=
  match l with [] => mret a | x :: l' => mbind (f a x) (fun a' => mfold f a' l') end.

(* ---------- the order of right-hand sides in syntax-directed operations ---------- *)
(* a right-hand side in a use: its node; d_production_n (doc_i, _lhs_symbol), which is absent if the left-hand side is not defined or the element was not
   checked; d_i, None if no defining right-hand side matches *)
Record use := mkUse { u_id : nat; u_def : option (nat * text); u_di : option nat }.
(* HTML.py: the tree of elements: element_name, section_kind, the right-hand sides of the productions in order if it is an emu-grammar, children *)
Inductive node := Node (name kind : text) (uses : list use) (children : list node).
Definition n_name (n : node) := let 'Node x _ _ _ := n in x.
Definition n_kind (n : node) := let 'Node _ x _ _ := n in x.
Definition n_uses (n : node) := let 'Node _ _ x _ := n in x.
Definition n_children (n : node) := let 'Node _ _ _ x := n in x.

(* HTML.py:218-219 *)
Definition is_section (n : node) : bool := tin (n_name n) [tx "emu-intro"; tx "emu-clause"; tx "emu-annex"].
Definition in_alg (n : node) : bool := text_eqb (n_name n) (tx "emu-alg").

(* HTML.py:247-252 with Section.py:103-113  each_descendant_that_is_a_section: the children that are sections, not those inside of other elements;
   the flag says whether an emu-alg contains it *)
Fixpoint each_section (alg : bool) (n : node) : list (bool * node) :=
  match n with Node _ _ _ children =>
    (if is_section n then [(alg, n)] else []) ++
    (fix go (l : list node) := match l with [] => [] | c :: l' => (if is_section c then each_section (alg || in_alg n) c else []) ++ go l' end) children
  end.

(* HTML.py:235-263  each_descendant_named('emu-grammar') from a section on: whether another section lies between, whether an emu-alg contains it *)
Fixpoint each_grammar (nested alg : bool) (n : node) : list (bool * bool * list use) :=
  match n with Node _ _ uses children =>
    (if text_eqb (n_name n) (tx "emu-grammar") then [(nested, alg || in_alg n, uses)] else []) ++
    (fix go (l : list node) := match l with [] => [] | c :: l' => each_grammar (nested || is_section c) (alg || in_alg n) c ++ go l' end) children
  end.

Inductive order_msg := SameLhs (lhs : text) (this before : nat) | OtherLhs (lhs : text) (this before : nat).
Definition key := (nat * option nat)%type.
(* comparison of pairs; None can be compared with None for equality but not with a number for order; (-1, -1), which prev_key is at first, is None here *)
Definition key_lt (k k' : key) : res bool :=
  if fst k =? fst k' then
    match snd k, snd k' with
    | Some a, Some b => Ok (a <? b)
    | None, None => Ok false
    | _, _ => Err TypeError
    end
  else Ok (fst k <? fst k').
(* emu_grammars.py:1380-1396 *)
Definition order_step (prev : option key) (u : use) : outm (nat * order_msg) (option key) :=
  match u_def u with
  | None => mfail AttributeError
  | Some (doc_i, lhs) =>
      let k := (doc_i, u_di u) in
      match prev with
      | None => mret (Some k)
      | Some p =>
          match key_lt k p with
          | Err e => mfail e
          | Ok false => mret (Some k)
          | Ok true =>
              mbind (mtell [(u_id u, if fst k =? fst p
                                     then SameLhs lhs (match snd k with Some a => a | None => 0 end) (match snd p with Some a => a | None => 0 end)
                                     else OtherLhs lhs (fst k) (fst p))]) (fun _ => mret (Some k))
          end
      end
  end.
(* emu_grammars.py:1362-1396 *)
Definition order_grammar (prev : option key) (g : bool * bool * list use) : outm (nat * order_msg) (option key) :=
  let '(nested, alg, uses) := g in
  mbind (massert (negb nested)) (fun _ => if alg then mret prev else mfold order_step prev uses).
Definition order_section (_ : unit) (s : bool * node) : outm (nat * order_msg) unit :=
  let '(alg, n) := s in
  if text_eqb (n_kind n) (tx "syntax_directed_operation")
  then mbind (mfold order_grammar None (each_grammar false alg n)) (fun _ => mret tt)
  else mret tt.
Definition check_order (root : node) : outm (nat * order_msg) unit := mfold order_section tt (each_section false root).

(* ---------- the references of annex A ---------- *)
(* an emu-prodref: its node, the attribute name, whether it has the attribute a *)
Record prodref := mkRef { r_id : nat; r_name : option text; r_a : bool }.
Inductive ref_msg := DuplicateRef (name : text) | NotReferenced.
(* emu_grammars.py:1405-1422; the names so far *)
Definition prodref_step (inf : infos) (names : list text) (r : prodref) : outm (nat * ref_msg) (list text) :=
  match r_name r with
  | None => mfail KeyError
  | Some name =>
      match tget inf name with
      | None => mfail AssertionError
      | Some i =>
          mbind (massert (thas (i_occs i) (tx "A"))) (fun _ =>
          if r_a r then mbind (massert (tin name names)) (fun _ => mret names)
          else mbind (mtell (if tin name names then [(r_id r, DuplicateRef name)] else [])) (fun _ => mret (names ++ [name])))
      end
  end.
Definition posn_leb (a b : nat * text) : bool := if fst a =? fst b then text_leb (snd a) (snd b) else fst a <? fst b.
(* emu_grammars.py:1424-1436; posn: where the left-hand side of the production with a number begins *)
Definition main_names (posn : nat -> nat) (inf : infos) : list (nat * text) :=
  flat_map (fun e => match tget (i_occs (snd e)) (tx "A") with Some k => [(posn k, fst e)] | None => [] end) inf.
Definition check_prodrefs (posn : nat -> nat) (inf : infos) (refs : list prodref) : outm (nat * ref_msg) unit :=
  mbind (mfold (prodref_step inf) [] refs) (fun names =>
  mtell (map (fun e => (fst e, NotReferenced)) (filter (fun e => negb (tin (snd e) names)) (isort posn_leb (main_names posn inf))))).

(* ---------- references to nonterminals in the text ---------- *)
Section Nonterminals.
(* which characters beyond ASCII match \w *)
Variable uniword : N -> bool.
Definition wordc (c : N) : bool :=
  digit c || upper c || lowerc c || (c =? 95)%N || ((128 <=? c)%N && uniword c).

(* what is before the first bar, and what follows it *)
Fixpoint to_bar (s : text) : option (text * text) :=
  match s with
  | [] => None
  | c :: s' => if (c =? 124)%N then Some ([], s') else match to_bar s' with Some (x, r) => Some (c :: x, r) | None => None end
  end.
(* emu_grammars.py:1670  one attempt at a position: what is between the bars *)
Definition ref_at (s : text) : option text :=
  match s with
  | b :: c :: s' =>
      if (b =? 124)%N && wordc c then match to_bar s' with Some (x :: xs, _) => Some (c :: x :: xs) | _ => None end else None
  | _ => None
  end.
(* re.finditer; skip: how many characters of a match are still to be passed *)
Fixpoint find_refs (pos skip : nat) (s : text) : list (nat * text) :=
  match s with
  | [] => []
  | _ :: s' =>
      match skip with
      | S k => find_refs (S pos) k s'
      | 0 => match ref_at s with
             | Some b => (pos, b) :: find_refs (S pos) (S (length b)) s'
             | None => find_refs (S pos) 0 s'
             end
      end
  end.
Fixpoint take_word (s : text) : text * text :=
  match s with c :: s' => if wordc c then let '(w, r) := take_word s' in (c :: w, r) else ([], s) | [] => ([], []) end.
(* the closing bracket and perhaps a question mark at the end: what is before *)
Definition strip_close (t : text) : option text :=
  match rev t with
  | 63%N :: 93%N :: x => Some (rev x)
  | 93%N :: x => Some (rev x)
  | _ => None
  end.
(* emu_grammars.py:1673  the name and the arguments; the last group is not used afterwards *)
Definition parse_ref (b : text) : option (text * option text) :=
  let '(w, r) := take_word b in
  match w with
  | [] => None
  | _ =>
      match r with
      | [] | [63%N] => Some (w, None)
      | 91%N :: t =>
          match strip_close t with
          | Some (x :: xs) => if existsb (N.eqb 10) (x :: xs) then None else Some (w, Some (x :: xs))
          | _ => None
          end
      | _ => None
      end
  end.
(* emu_grammars.py:1686  re.split(', *', args); sp: the spaces after a comma are being passed *)
Fixpoint split_args (sp : bool) (s : text) : list text :=
  match s with
  | [] => [[]]
  | c :: s' =>
      if (c =? 44)%N then [] :: split_args true s'
      else if sp && (c =? 32)%N then split_args true s'
      else match split_args false s' with w :: ws => (c :: w) :: ws | [] => [[c]] end
  end.

Inductive nt_msg := Malformed | Unrecognized (nt : text) | NoPrefix (arg : text) | BadArgs (args : text) (params : list text).
(* emu_grammars.py:1687-1699 *)
Definition arg_step (pos : nat) (acc : list text) (a : text) : outm (nat * nt_msg) (list text) :=
  match a with
  | [] => mfail IndexError
  | c :: a' =>
      if existsb (N.eqb c) [63; 43; 126]%N then mret (acc ++ [a'])
      else mbind (mtell [(pos, NoPrefix a)]) (fun _ => mret (acc ++ [a]))
  end.
(* str.find *)
Fixpoint find_text (p s : text) : option nat :=
  if starts p s then Some 0 else match s with [] => None | _ :: s' => option_map S (find_text p s') end.
(* emu_grammars.py:1670-1711, for one match; bstart: B_start *)
Definition ref_step (ds : list dprod) (inf : infos) (bstart : option nat) (_ : unit) (m : nat * text) : outm (nat * nt_msg) unit :=
  let '(pos, b) := m in
  match parse_ref b with
  | None => mtell [(pos, Malformed)]
  | Some (nt, args) =>
      match tget inf nt with
      | None => mtell [(pos, Unrecognized nt)]
      | Some i =>
          match args with
          | None => mret tt
          | Some args =>
              mbind (mfold (arg_step pos) [] (split_args false args)) (fun names =>
              let arena := if match bstart with Some k => pos <? k | None => false end then tx "A" else tx "B" in
              match (match get_def_occ i arena with Some k => nth_error ds k | None => None end) with
              | None => mfail AttributeError
              | Some d => mtell (if texts_eqb names (p_params (d_prod d)) then [] else [(pos, BadArgs args (p_params (d_prod d)))])
              end)
          end
      end
  end.
(* emu_grammars.py:1659-1711  check_nonterminal_refs *)
Definition check_refs (ds : list dprod) (inf : infos) (s : text) : outm (nat * nt_msg) unit :=
  mfold (ref_step ds inf (find_text (tx "namespace=""annexB""") s)) tt (find_refs 0 0 s).
End Nonterminals.
