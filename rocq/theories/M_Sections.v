(* Model of the section tree and the section numbers, Section.py. *)
From Verif Require Import M_Base.
From Coq Require Decimal.

(* str(n) for a natural number *)
Fixpoint uint_text (u : Decimal.uint) : text :=
  match u with
  | Decimal.Nil => []
  | Decimal.D0 u => 48%N :: uint_text u
  | Decimal.D1 u => 49%N :: uint_text u
  | Decimal.D2 u => 50%N :: uint_text u
  | Decimal.D3 u => 51%N :: uint_text u
  | Decimal.D4 u => 52%N :: uint_text u
  | Decimal.D5 u => 53%N :: uint_text u
  | Decimal.D6 u => 54%N :: uint_text u
  | Decimal.D7 u => 55%N :: uint_text u
  | Decimal.D8 u => 56%N :: uint_text u
  | Decimal.D9 u => 57%N :: uint_text u
  end.
Definition str (n : nat) : text := uint_text (Nat.to_uint n).

(* ---- _make_section_tree_r ---- *)

(* what it looks at in a child; a child that is a section has an element name that makes it one, and may lack an id *)
Inductive elt := Intro | Clause | Annex | OtherElt.
Inductive hnode :=
| White | Comment | H1 | H2 (title : nat) | OtherBlock (id : nat)
| Section_ (e : elt) (has_id : bool) (children : list hnode).

(* the attributes set on a section; a numless part is its title and its block_children *)
Record parts := mkParts { block_children : list hnode; numless_children : list (nat * list hnode); section_children : list hnode }.
(* Section.py:101-122  appending to the block_children of the last numless part *)
Fixpoint add_last (l : list (nat * list hnode)) (c : hnode) : list (nat * list hnode) :=
  match l with
  | [] => []
  | [(t, b)] => [(t, b ++ [c])]
  | p :: l' => p :: add_last l' c
  end.
Definition place (p : parts) (c : hnode) : parts :=
  match c with
  | White | Comment => p
  | Section_ _ _ _ => mkParts (block_children p) (numless_children p) (section_children p ++ [c])
  | H2 t => mkParts (block_children p) (numless_children p ++ [(t, [])]) (section_children p)
  | _ => match numless_children p with
         | [] => mkParts (block_children p ++ [c]) [] (section_children p)
         | _ :: _ => mkParts (block_children p) (add_last (numless_children p) c) (section_children p)
         end
  end.
Definition classify (cs : list hnode) : parts := fold_left place cs (mkParts [] [] []).
(* Section.py:124-129  the heading of a section other than the root *)
Definition take_heading (p : parts) : res parts :=
  match block_children p with
  | [] => Err IndexError
  | H1 :: b => Ok (mkParts b (numless_children p) (section_children p))
  | _ :: _ => Err AssertionError
  end.
(* Section.py:90-145  whether _make_section_tree_r succeeds, and in the order of visits the parts of each section
   (the numbers of the messages about empty sections are those of the empty parts).
   The assertion about inline children is left out. *)
Fixpoint make_tree (s : hnode) : res (list parts) :=
  match s with
  | Section_ _ _ cs =>
    do p <- take_heading (classify cs) ;;
    do r <- (fix go (l : list hnode) : res (list parts) :=
               match l with
               | [] => Ok []
               | c :: l' => match c with
                            | Section_ _ _ _ => do a <- make_tree c ;; do b <- go l' ;; Ok (a ++ b)
                            | _ => go l'
                            end
               end) cs ;;
    Ok (p :: r)
  | _ => Ok []
  end.

(* ---- _set_section_identification_r ---- *)

Inductive sec := Sec (e : elt) (has_id : bool) (children : list sec).
Notation dot := 46%N.
(* Section.py:185-195  the numbers given to a section other than the root and to its descendants, with their paths (0-based) below it *)
Fixpoint number_r (s : sec) (num : text) : res (list (list nat * text)) :=
  match s with
  | Sec _ has_id cs =>
    if negb has_id then Err KeyError
    else
      do r <- (fix go (l : list sec) (child_clause_counter : nat) : res (list (list nat * text)) :=
                 match l with
                 | [] => Ok []
                 | c :: l' =>
                   let k := S child_clause_counter in
                   do a <- number_r c (num ++ dot :: str k) ;;
                   do b <- go l' k ;;
                   Ok (map (fun e => (child_clause_counter :: fst e, snd e)) a ++ b)
                 end) cs 0 ;;
      Ok (([], num) :: r)
  end.
(* Section.py:167-183  the root: [i] is the position of the child, for the paths *)
Fixpoint number_root (l : list sec) (i clause_counter annex_counter : nat) : res (list (list nat * text)) :=
  match l with
  | [] => Ok []
  | c :: l' =>
    let 'Sec e _ _ := c in
    do sca <- match e with
              | Intro => Ok ([48%N], clause_counter, annex_counter)
              | Clause => let k := S clause_counter in Ok (str k, k, annex_counter)
              | Annex => if annex_counter <? 26 then Ok ([(65 + N.of_nat annex_counter)%N], clause_counter, S annex_counter) else Err IndexError
              | OtherElt => Err AssertionError
              end ;;
    let '(sn, cc, ac) := sca in
    do a <- number_r c sn ;;
    do b <- number_root l' (S i) cc ac ;;
    Ok (map (fun e => (i :: fst e, snd e)) a ++ b)
  end.
(* the sections of the document below the root *)
Definition number_sections (root_children : list sec) : res (list (list nat * text)) := number_root root_children 0 0 0.
