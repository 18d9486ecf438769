(* Model of the check that the headers of an algorithm are consistent: algos.py:284-452. *)
From Coq Require Import Ascii String.
From Verif Require Import M_Base M_HTML M_Shared M_Records M_Refs M_Sections M_Style M_PropPath.
Open Scope list_scope.
Open Scope nat_scope.
Notation length := List.length.

(* algos.py:140-144  AlgParam *)
Record param := mkParam { p_name : text; p_punct : text; p_nature : text }.
(* algos.py:148-160  AlgHeader: name, species, for_phrase, params, whether there is a return_nature_node;
   of its section: section_num, section_title, and the titles of the parent (None: the document) and of the parent of the parent *)
Record header := mkHeader {
  h_name : text; h_species : text; h_for : option text; h_params : list param; h_returns : bool;
  h_num : text; h_title : text; h_parent : option text; h_grand : option text }.
(* algos.py: Alg: name, species, headers *)
Record alg := mkAlg { a_name : text; a_species : text; a_headers : list header }.

Definition opt_eqb (a b : option text) : bool :=
  match a, b with Some x, Some y => text_eqb x y | None, None => true | _, _ => false end.
(* algos.py:318-322 *)
Definition by_grandparent : list (text * text) := [
  (tx "Cyclic Module Records", tx "a Cyclic Module Record _module_");
  (tx "Source Text Module Records", tx "a Source Text Module Record _module_");
  (tx "Synthetic Module Records", tx "a Synthetic Module Record _module_")].
(* algos.py:325-343 *)
Definition by_parent : list (text * text) := [
  (tx "Declarative Environment Records", tx "a Declarative Environment Record _envRecord_");
  (tx "Object Environment Records", tx "an Object Environment Record _envRecord_");
  (tx "Function Environment Records", tx "a Function Environment Record _envRecord_");
  (tx "Global Environment Records", tx "a Global Environment Record _envRecord_");
  (tx "Module Environment Records", tx "a Module Environment Record _envRecord_");
  (tx "Ordinary Object Internal Methods and Internal Slots", tx "an ordinary object _obj_");
  (tx "ECMAScript Function Objects", tx "an ECMAScript function object _func_");
  (tx "Built-in Function Objects", tx "a built-in function object _func_");
  (tx "Bound Function Exotic Objects", tx "a bound function exotic object _func_");
  (tx "Array Exotic Objects", tx "an Array exotic object _array_");
  (tx "String Exotic Objects", tx "a String exotic object _string_");
  (tx "Arguments Exotic Objects", tx "an arguments exotic object _args_");
  (tx "TypedArray Exotic Objects", tx "a TypedArray _obj_");
  (tx "Module Namespace Exotic Objects", tx "a module namespace exotic object _obj_");
  (tx "Immutable Prototype Exotic Objects", tx "an immutable prototype exotic object _obj_");
  (tx "Proxy Object Internal Methods and Internal Slots", tx "a Proxy exotic object _obj_")].
(* algos.py:314-343: expected_for_phrase; re.fullmatch of None is a TypeError *)
Definition expected_for (h : header) : res text :=
  match h_parent h with
  | None => Err TypeError
  | Some p =>
      let find d k := match k with Some k => match tget d k with Some v => Ok v | None => Err KeyError end | None => Err KeyError end in
      match between (tx "Implementation of ") (tx "Module Record Abstract Methods") p with
      | Some m => if no_newline m then find by_grandparent (h_grand h) else find by_parent (Some p)
      | None => find by_parent (Some p)
      end
  end.
Definition shown (x : option text) : text := match x with Some t => t | None => tx "None" end.
(* put(); put(f"{sect.section_num} {sect.section_title}") *)
Definition head_lines (h : header) : list text := [[]; h_num h ++ tx " " ++ h_title h].
(* 344-349 *)
Definition for_one (_ : unit) (h : header) : outm text unit :=
  match expected_for h with
  | Err e => mfail e
  | Ok e =>
      if opt_eqb (h_for h) (Some e) then mret tt
      else mtell (head_lines h ++ [tx "  unexpected for_phrase"; tx "  expected: " ++ e; tx "       got: " ++ shown (h_for h)])
  end.
(* 451-452  elements_are_distinct *)
Fixpoint distinct (l : list (option text)) : bool :=
  match l with [] => true | x :: l' => negb (existsb (opt_eqb x) l') && distinct l' end.
Definition starts (p t : text) : bool := is_prefix p t.
Definition none_for (h : header) : bool := match h_for h with None => true | Some _ => false end.
(* 300-374: name, species, for_phrase *)
Definition check_for (a : alg) : outm text unit :=
  mbind (massert (forallb (fun h => text_eqb (h_name h) (a_name a) && text_eqb (h_species h) (a_species a)) (a_headers a))) (fun _ =>
  if text_eqb (a_species a) (tx "shorthand") then massert (length (a_headers a) =? 0)
  else if starts (tx "op: discriminated by type:") (a_species a) then
    mbind (mfold for_one tt (a_headers a)) (fun _ => massert (distinct (map h_for (a_headers a))))
  else if starts (tx "op: discriminated by syntax:") (a_species a) || starts (tx "op: singular") (a_species a) || starts (tx "bif:") (a_species a) then
    massert (forallb none_for (a_headers a))
  else mfail AssertionError).
(* 399-402: zip stops at the shorter list *)
Fixpoint same_params (l l' : list param) : bool :=
  match l, l' with
  | p :: l1, p' :: l1' => text_eqb (p_name p) (p_name p') && text_eqb (p_punct p) (p_punct p') && text_eqb (p_nature p) (p_nature p') && same_params l1 l1'
  | _, _ => true
  end.
(* 392-402 *)
Definition params_one (name : text) (params : list param) (_ : unit) (h : header) : outm text unit :=
  mbind (if length (h_params h) =? length params then mret tt
         else mtell (head_lines h ++ [tx "  gives header for `" ++ name ++ tx "` with " ++ str (length (h_params h)) ++ tx " params"; tx "  but expected " ++ str (length params) ++ tx " params"])) (fun _ =>
  massert (same_params (h_params h) params)).
(* 376-402: alg.params, which stay as they are if there is no header *)
Definition check_params (a : alg) : outm text (option (list param)) :=
  match a_headers a with
  | [] => mret None
  | h :: hs =>
      mbind (mfold (params_one (a_name a) (h_params h)) tt hs) (fun _ => mret (Some (h_params h)))
  end.
(* 407-443: return_nature_node *)
Definition later_return (h : header) : list text := if h_returns h then head_lines h ++ [tx "  return_nature_node is not None"] else [].
Definition check_returns (a : alg) : outm text unit :=
  if starts (tx "bif:") (a_species a) || text_eqb (a_species a) (tx "op: discriminated by syntax: early error") then
    massert (forallb (fun h => negb (h_returns h)) (a_headers a))
  else if text_eqb (a_species a) (tx "op: discriminated by syntax: steps") && (1 <? length (a_headers a)) then
    mtell (match a_headers a with
           | h :: hs => (if h_returns h then [] else head_lines h ++ [tx "  first header for the alg doesn't have a return_nature_node"]) ++ flat_map later_return hs
           | [] => []
           end)
  else if starts (tx "op: discriminated by type:") (a_species a) then mret tt
  else mtell (flat_map (fun h => if h_returns h then [] else head_lines h ++ [tx "  For " ++ a_name a ++ tx ", return_nature_node is None"]) (a_headers a)).
(* 297-443: one algorithm *)
Definition check_alg (a : alg) : outm text (option (list param)) :=
  mbind (check_for a) (fun _ =>
  mbind (check_params a) (fun ps =>
  mbind (check_returns a) (fun _ => mret ps))).
(* 284-452  check_alg_consistency: the lines of the file and the params of the algorithms, in order *)
Definition check_alg_consistency (ops bifs : list (text * alg)) : outm text (list (text * option (list param))) :=
  mfold (fun done x => mbind (check_alg (snd x)) (fun ps => mret (done ++ [(fst x, ps)]))) [] (sorted_items ops ++ sorted_items bifs).
